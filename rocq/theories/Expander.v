(** * Model of macro expansion ([crates/seam/src/parse/expander.rs])

    Expansion is recursive in ways that need not terminate, so the two mutually
    recursive entry points [expand_node] and [expand_invocation] are one
    function [run] on a recursion budget.  Each builtin macro is a separate
    function that receives both entry points as parameters [ex] and [inv]. *)

From Coq Require Import String List Ascii Bool Arith NArith ZArith.
From Verif Require Import Text Lossy Res Ast Parser Env Scope State Args Bind Numbers Paths
  Data Sorting.
Import ListNotations.

Definition out : Type := res (list node * state).

Definition error {A} (k : ekind) (s : site) : res A := Err (EErr k s).

(** First node's whitespace replaced. *)
Definition set_first_ws (w : bytes) (ns : list node) : list node :=
  match ns with [] => [] | n :: ns' => set_ws w n :: ns' end.

(** A new atom at the place of a macro invocation. *)
Definition here (c : call) (v : bytes) : atom :=
  Atom v (node_site (c_node c)) (leading_ws (c_node c)).
Definition call_site (c : call) : site := node_site (c_node c).
Definition call_ws (c : call) : bytes := leading_ws (c_node c).

(** [expander.rs:1659-1693] [create_macro]: at most one &-parameter and one
    &&-parameter. *)
Definition amp (n : node) : bool :=
  match symbol n with
  | Some a => starts_with (b "&") (a_val a) && negb (starts_with (b "&&") (a_val a))
  | None => false
  end.
Definition ampamp (n : node) : bool :=
  match symbol n with Some a => starts_with (b "&&") (a_val a) | None => false end.
Definition create_macro (name : bytes) (params body : list node) (s : state) : res state :=
  match List.filter amp params with
  | _ :: excess :: _ => error EBindMultiRest (node_site excess)
  | _ =>
      match List.filter ampamp params with
      | _ :: excess :: _ => error EBindMultiRest (node_site excess)
      | _ => Ok (set_defs (put name (Macro params body) (x_defs s)) s)
      end
  end.

(** [Site::uuid] ([tokens.rs:45-50]) with [Hash for Site] (100-108). *)
Definition uuid (E : env) (s : state) (st : site) : bytes :=
  let path := fst (nth (s_src st) (g_sources (x_world s)) ([], [])) in
  show_Z (Z.of_N (e_hash E path (s_line st) (s_off st) (s_col st) (s_span st))) ++ b "-" ++
  show_nat (s_off st).

(** All atomic arguments' values, or the first node that is not atomic. *)
Fixpoint atoms (ns : list node) : list atom + node :=
  match ns with
  | [] => inl []
  | n :: ns' =>
      match atomic n with
      | None => inr n
      | Some a => match atoms ns' with inl l => inl (a :: l) | inr m => inr m end
      end
  end.

(** [expander.rs:835-873] following one component of a path. *)
Definition find_attr (item : bytes) (view : list node) : option node :=
  match find (fun n => match n with Attr k _ _ _ => beq item k | _ => false end) view with
  | Some (Attr _ v _ _) => Some v
  | _ => None
  end.
Definition get_item (item : bytes) (n : node) : res node :=
  match list_of n with
  | None => error EGet (node_site n)
  | Some view =>
      let by_index :=
        match parse_usize item with
        | Some i => if (i <? N.of_nat (length view))%N then nth_error view (N.to_nat i) else None
        | None => None
        end in
      match by_index with
      | Some m => Ok m
      | None =>
          match find_attr item view with
          | Some m => Ok m
          | None => error EGet (node_site n)
          end
      end
  end.
Fixpoint get_path (path : list bytes) (n : node) : res node :=
  match path with
  | [] => Ok n
  | item :: path' => let* m := get_item item n in get_path path' m
  end.

(** [expander.rs:885-896] time zone in seconds; arithmetic is that of the
    64 bit fixed-point type [I32F32] (units of 2^-32), where overflow panics
    in debug builds. *)
Definition fits_i64 (z : Z) : bool := (- 2 ^ 63 <=? z)%Z && (z <? 2 ^ 63)%Z.
Definition checked (z : Z) : res Z := if fits_i64 z then Ok z else Panic POverflow.
Definition round_fixed (z : Z) : Z :=
  (Z.sgn z * ((Z.abs z + 2 ^ 31) / 2 ^ 32))%Z.
Definition timezone (E : env) (tz : option atom) : res Z :=
  match tz with
  | None => Ok (e_local E)
  | Some a =>
      match e_fixed E (a_val a) with
      | None => error EDate (a_site a)
      | Some hours =>
          let* minutes := checked (hours * 60) in
          let* seconds := checked (minutes * 60) in
          let r := round_fixed seconds in
          let* _ := checked (r * 2 ^ 32) in
          Ok r
      end
  end.
(** [FixedOffset::east_opt]. *)
Definition east_ok (secs : Z) : bool := (-86400 <? secs)%Z && (secs <? 86400)%Z.

(** The builtin macros ([expander.rs:1722-1766]). *)
Inductive builtin :=
| BDefine | BMatch | BIfdef | BDo | BGet | BRaw | BString | BNumber | BSymbol
| BInclude | BEmbed | BNamespace | BMarkdown | BYaml | BToml | BGlob | BFor
| BSort | BReverse | BDate | BTimestamp | BJoin | BConcat | BMap | BFilter
| BSplat | BList | BStrip | BApply | BLambda | BLog | BFormat | BEnv.

Definition builtins : list (bytes * builtin) :=
  [(b "define", BDefine); (b "match", BMatch); (b "ifdef", BIfdef); (b "do", BDo);
   (b "get", BGet); (b "raw", BRaw); (b "string", BString); (b "number", BNumber);
   (b "symbol", BSymbol); (b "include", BInclude); (b "embed", BEmbed);
   (b "namespace", BNamespace); (b "markdown", BMarkdown); (b "yaml", BYaml);
   (b "json", BYaml); (b "toml", BToml); (b "glob", BGlob); (b "for", BFor);
   (b "sort", BSort); (b "reverse", BReverse); (b "date", BDate);
   (b "timestamp", BTimestamp); (b "join", BJoin); (b "concat", BConcat);
   (b "map", BMap); (b "filter", BFilter); (b "splat", BSplat); (b "list", BList);
   (b "strip", BStrip); (b "apply", BApply); (b "lambda", BLambda); (b "log", BLog);
   (b "format", BFormat); (b "os/env", BEnv)].

Definition find_builtin (name : bytes) : option builtin := assoc name builtins.

(** Argument rules ([arguments!] blocks), by macro. *)
Definition lit := TLiteral [].
Definition rules_markdown := Rules   (* expander.rs:698-702 *)
  [mandatory 1 (TString []);
   option_named (b "only") (TLiteral (one_of [b "frontmatter"; b "content"]));
   option_named (b "separator") lit] None.
Definition rules_yaml := Rules       (* 803-806, 817-820 *)
  [mandatory 1 (TString []); option_named (b "separator") lit] None.
Definition rules_get := Rules        (* 829-833 *)
  [mandatory 1 lit; mandatory 2 (TAny []); option_named (b "separator") lit] None.
Definition rules_date := Rules       (* 880-884 *)
  [mandatory 1 lit; optional 2 (TNumber []); option_named (b "timezone") (TNumber [])] None.
Definition rules_timestamp := Rules  (* 930-934 *)
  [mandatory 1 lit; mandatory 2 lit; option_named (b "timezone") (TNumber [])] None.
Definition rules_for := Rules        (* 1131-1136 *)
  [mandatory 1 (TAny []); mandatory 2 (TSymbol (one_of [b "in"])); mandatory 3 (TList [])]
  (Some (TAny [])).
Definition rules_glob := Rules       (* 1156-1161 *)
  [mandatory 1 lit;
   option_named (b "type") (TLiteral (one_of [b "file"; b "directory"; b "any"]));
   option_named (b "sort") (TLiteral (one_of
     [b "modified"; b "created"; b "name"; b "type"; b "none"]));
   option_named (b "order") (TLiteral (one_of [b "ascending"; b "descending"]))] None.
Definition rules_literals := Rules [] (Some lit).  (* 1350-1352, 1363-1365, 1520-1522 *)
Definition rules_reverse := Rules [mandatory 1 (TList [])] None.  (* 1376-1378 *)
Definition rules_sort := Rules       (* 1403-1407 *)
  [mandatory 1 (TAny []);
   option_named (b "order") (TLiteral (one_of [b "ascending"; b "descending"]));
   option_named (b "key") (TSymbol [])] None.
Definition rules_join := Rules       (* 1498-1502 *)
  [mandatory 1 lit;
   option_named (b "trailing") (TLiteral (one_of [b "true"; b "false"]))]
  (Some lit).
Definition rules_map := Rules        (* 1541-1544, 1558-1561, 1619-1622 *)
  [mandatory 1 (TSymbol [])] (Some (TAny [])).
Definition rules_lambda := Rules     (* 1629-1632 *)
  [mandatory 1 (TAny [])] (Some (TAny [])).

Definition val_or (d : bytes) (o : option atom) : bytes :=
  match o with Some a => a_val a | None => d end.

Section WithEnv.
Variable E : env.

Section Builtins.
(** [expand_node] and [expand_invocation]. *)
Variable ex : node -> state -> out.
Variable inv : bytes -> call -> list node -> state -> out.

(** [expander.rs:1853-1860] [expand_nodes]. *)
Fixpoint exs (ns : list node) (s : state) : out :=
  match ns with
  | [] => Ok ([], s)
  | n :: ns' =>
      let* '(xs, s) := ex n s in
      let* '(ys, s) := exs ns' s in
      Ok (xs ++ ys, s)
  end.

(** Evaluating arguments, then checking them against rules.  Constructing
    the parser reads the invocation's site ([macros.rs:364]). *)
Definition eager (rs : rules) (c : call) (ps : list node) (s : state)
  : res (args * list node * state) :=
  let* '(ps, s) := exs ps s in
  let* x := arguments rs (c_node c) ps in
  Ok (x, ps, touch c s).

(** [expander.rs:495-539]. *)
Definition do_define (c : call) (ps : list node) (s : state) : out :=
  match ps with
  | [] => error EDefine (call_site c)
  | head :: nodes =>
      match symbol head with
      | Some v =>
          let* '(body, s) := exs nodes s in
          let* s := create_macro (a_val v) [] body s in
          Ok ([], s)
      | None =>
          match list_of head with
          | None => error EDefine (node_site head)
          | Some [] => error EDefine (node_site head)
          | Some (name :: params) =>
              match symbol name with
              | None => error EDefine (node_site name)
              | Some v =>
                  let* s := create_macro (a_val v) params nodes s in
                  Ok ([], s)
              end
          end
      end
  end.

(** [expander.rs:461-486] the clauses of [%match]. *)
Fixpoint match_clauses (value : node) (clauses : list node) (s : state) : out :=
  match clauses with
  | [] => Ok ([], s)
  | clause :: clauses' =>
      match list_of clause with
      | None => error EMatch (node_site clause)
      | Some [] => error EMatch (node_site clause)
      | Some (pat :: body) =>
          let* '(ps, s) := ex pat s in
          match ps with
          | [p] =>
              match bind_node E p value (State (x_defs s) (vec_clone (x_vec s)) (x_world s)) with
              | Err _ => match_clauses value clauses' s
              | _ =>
                  let* '(ns, _, s) :=
                    in_frame (fun s => let* s := bind_node E p value s in exs body s) s in
                  Ok (ns, s)
              end
          | _ => error EMatch (node_site pat)
          end
      end
  end.

(** [expander.rs:446-490]. *)
Definition do_match (c : call) (ps : list node) (s : state) : out :=
  match ps with
  | [] => error EMatch (call_site c)
  | expr :: clauses =>
      let* '(vs, s) := ex expr s in
      match vs with
      | [v] => match_clauses v clauses s
      | _ => error EMatch (node_site expr)
      end
  end.

(** [expander.rs:544-574]. *)
Definition do_ifdef (c : call) (ps : list node) (s : state) : out :=
  let branch cond yes (no : option node) :=
    match atomic cond with
    | None => error EIfdef (node_site cond)
    | Some a =>
        let* '(ns, s) :=
          if defined (a_val a) (x_defs s) then ex yes s
          else match no with
               | Some alt => ex alt s
               | None => Ok ([], s)
               end in
        match ns with
        | [] => Ok ([], s)
        | _ => Ok (set_first_ws (call_ws c) ns, touch c s)
        end
    end in
  match ps with
  | [cond; yes] => branch cond yes None
  | [cond; yes; no] => branch cond yes (Some no)
  | _ => error EIfdef (call_site c)
  end.

(** [expander.rs:576-579]. *)
Definition do_do (c : call) (ps : list node) (s : state) : out := exs ps s.

(** [expander.rs:605-627] the search for a file; [sex]: also try the path
    with [.sex] appended. *)
Fixpoint search_file (sex : bool) (dirs : list bytes) (path : bytes) : option (bytes * bytes) :=
  match dirs with
  | [] => None
  | dir :: dirs' =>
      let p := path_join dir path in
      match e_read E p with
      | Some text => Some (p, text)
      | None =>
          let again := search_file sex dirs' path in
          if sex then
            match with_sex p with
            | Some q => match e_read E q with
                        | Some text => Some (q, text)
                        | None => again
                        end
            | None => again
            end
          else again
      end
  end.

(** [expander.rs:581-648]. *)
Definition do_include (c : call) (ps : list node) (s : state) : out :=
  let* '(ps, s) := exs ps s in
  match ps with
  | [n] =>
      match atomic n with
      | None => error EInclude (node_site n)
      | Some a =>
          match search_file true (e_includes E) (a_val a) with
          | None => error EInclude (a_site a)
          | Some (path, text) =>
              let '(id, s) := add_source path text s in
              match parse (e_unescape E) id text with
              | Ok tree =>
                  let* '(ns, s) := exs tree s in
                  match ns with
                  | [] => Ok ([], s)
                  | _ => Ok (set_first_ws (call_ws c) ns, touch c s)
                  end
              | Err _ => error EInclude (call_site c)
              | Panic p => Panic p
              | Hang => Hang
              | OutOfFuel => OutOfFuel
              end
          end
      end
  | _ => error EInclude (call_site c)
  end.

(** [expander.rs:650-689]. *)
Definition do_embed (c : call) (ps : list node) (s : state) : out :=
  let* '(ps, s) := exs ps s in
  match ps with
  | [n] =>
      match atomic n with
      | None => error EEmbed (node_site n)
      | Some a =>
          match search_file false (e_includes E) (a_val a) with
          | None => error EEmbed (a_site a)
          | Some (_, text) => Ok ([Str (here c text)], touch c s)
          end
      end
  | _ => error EEmbed (call_site c)
  end.

(** [expander.rs:758-789] [extract_frontmatter], with the definitions it
    leaves behind. *)
Definition frontmatter (c : call) (contents : atom) (sep : bytes) (s : state)
  : res (res unit * state) :=
  match e_front E (a_val contents) with
  | None | Some FNone => Ok (error EMarkdown (a_site contents), s)
  | Some (FYaml text) =>
      let* '(r, defs) := expand_yaml E text sep (call_site c) (x_defs s) in
      Ok (rmap (fun _ => tt) r, set_defs defs s)
  | Some (FToml text) =>
      let '(r, defs) := expand_toml E text sep (call_site c) (x_defs s) in
      Ok (rmap (fun _ => tt) r, set_defs defs s)
  end.

(** [expander.rs:694-798]. *)
Definition do_markdown (c : call) (ps : list node) (s : state) : out :=
  let* '(x, _, s) := eager rules_markdown c ps s in
  let* contents := need as_atom (PInt 1) x in
  let* only := want as_atom (PStr (b "only")) x in
  let* sep := want as_atom (PStr (b "separator")) x in
  let sep := val_or (b "/") sep in
  let html :=
    match e_html E (a_val contents) with
    | Some html => Ok [Raw (here c html)]
    | None => error EMarkdown (a_site contents)
    end in
  match option_map a_val only with
  | None =>
      let* '(_, s) := frontmatter c contents sep s in
      let* ns := html in Ok (ns, touch c s)
  | Some o =>
      if beq o (b "frontmatter") then
        let* '(r, s) := frontmatter c contents sep s in
        let* _ := r in Ok ([], touch c s)
      else if beq o (b "content") then let* ns := html in Ok (ns, touch c s)
      else Panic PUnreachable
  end.

(** [expander.rs:800-811]. *)
Definition do_yaml (c : call) (ps : list node) (s : state) : out :=
  let* '(x, _, s) := eager rules_yaml c ps s in
  let* text := need as_atom (PInt 1) x in
  let* sep := want as_atom (PStr (b "separator")) x in
  let* '(r, defs) :=
    expand_yaml E (a_val text) (val_or (b "/") sep) (call_site c) (x_defs s) in
  let* ns := r in
  Ok (ns, touch c (set_defs defs s)).

(** [expander.rs:813-824]. *)
Definition do_toml (c : call) (ps : list node) (s : state) : out :=
  let* '(x, _, s) := eager rules_yaml c ps s in
  let* text := need as_atom (PInt 1) x in
  let* sep := want as_atom (PStr (b "separator")) x in
  let '(r, defs) :=
    expand_toml E (a_val text) (val_or (b "/") sep) (call_site c) (x_defs s) in
  let* ns := r in
  Ok (ns, touch c (set_defs defs s)).

(** [expander.rs:826-875]. *)
Definition do_get (c : call) (ps : list node) (s : state) : out :=
  let* '(x, _, s) := eager rules_get c ps s in
  let* path := need as_atom (PInt 1) x in
  let* n := need as_node (PInt 2) x in
  let* sep := want as_atom (PStr (b "separator")) x in
  let* m := get_path (split (val_or (b "/") sep) (a_val path)) n in
  Ok ([m], s).

(** [expander.rs:877-925].  An invalid format string makes [to_string]
    panic. *)
Definition do_date (c : call) (ps : list node) (s : state) : out :=
  let* '(x, _, s) := eager rules_date c ps s in
  let* fmt := need as_atom (PInt 1) x in
  let* time := want as_atom (PInt 2) x in
  let* tz := want as_atom (PStr (b "timezone")) x in
  let* offset := timezone E tz in
  let* time :=
    match time with
    | None => Ok Now
    | Some t =>
        match parse_i64 (a_val t) with
        | None => error EDate (a_site t)
        | Some secs => if e_time_ok E secs then Ok (At secs) else error EDate (a_site t)
        end
    end in
  if east_ok offset then
    match e_date E time offset (a_val fmt) with
    | Some text => Ok ([Str (here c text)], touch c s)
    | None => Panic PUnwrap
    end
  else error EDate (match tz with Some a => a_site a | None => call_site c end).

(** [expander.rs:927-986]. *)
Definition do_timestamp (c : call) (ps : list node) (s : state) : out :=
  let* '(x, _, s) := eager rules_timestamp c ps s in
  let* fmt := need as_atom (PInt 1) x in
  let* date := need as_atom (PInt 2) x in
  let* tz := want as_atom (PStr (b "timezone")) x in
  let* offset := timezone E tz in
  if east_ok offset then
    let* t :=
      match e_parse_date E (a_val fmt) (a_val date) with
      | Some t => Ok t
      | None =>
          match e_parse_naive E (a_val fmt) (a_val date) with
          | None => error ETimestamp (call_site c)
          | Some t => if e_time_ok E (t - offset)%Z then Ok (t - offset)%Z
                      else error ETimestamp (call_site c)
          end
      end in
    Ok ([Num (here c (show_Z t))], touch c s)
  else error EDate (match tz with Some a => a_site a | None => call_site c end).

(** [expander.rs:990-1006]. *)
Definition do_log (c : call) (ps : list node) (s : state) : out :=
  let* '(ns, s) := exs ps s in
  match atoms ns with
  | inr _ => error ELog (call_site c)
  | inl words =>
      Ok ([], log_line (call_site c) (join (b " ") (map a_val words)) (touch c s))
  end.

(** [expander.rs:1008-1030]. *)
Definition do_env (c : call) (ps : list node) (s : state) : out :=
  let* '(ns, s) := exs ps s in
  match ns with
  | [n] =>
      match atomic n with
      | None => error EEnv (node_site n)
      | Some a =>
          match e_getenv E (a_val a) with
          | None => error EEnv (a_site a)
          | Some v => Ok ([Str (Atom v (a_site a) (a_ws a))], s)
          end
      end
  | _ => error EEnv (call_site c)
  end.

(** [expander.rs:1053-1072] the arguments of a format string. *)
Fixpoint format_args (ns : list node) : list (option bytes * bytes) + node :=
  match ns with
  | [] => inl []
  | n :: ns' =>
      let '(name, v) :=
        match n with Attr k v _ _ => (Some k, v) | _ => (None, n) end in
      match atomic v with
      | None => inr v
      | Some a =>
          match format_args ns' with
          | inl l => inl ((name, a_val a) :: l)
          | inr m => inr m
          end
      end
  end.

(** [expander.rs:1032-1087]. *)
Definition do_format (c : call) (ps : list node) (s : state) : out :=
  let* '(ns, s) := exs ps s in
  match ns with
  | [] => error EFormat (call_site c)
  | Str fmt :: rest =>
      if e_template E (a_val fmt) then
        match format_args rest with
        | inr v => error EFormat (node_site v)
        | inl l =>
            match e_format E (a_val fmt) l with
            | Some text => Ok ([Str (here c text)], touch c s)
            | None => error EFormat (a_site fmt)
            end
        end
      else error EFormat (a_site fmt)
  | n :: _ => error EFormat (node_site n)
  end.

(** [expander.rs:1099-1113] options of [%namespace]. *)
Fixpoint namespace_options (sep : bytes) (ns : list node) : res (bytes * list node) :=
  match ns with
  | Attr k v st _ :: ns' =>
      if beq k (b "separator") then
        match atomic v with
        | Some a => namespace_options (a_val a) ns'
        | None => error ENamespace (node_site v)
        end
      else error ENamespace st
  | _ => Ok (sep, ns)
  end.

(** [expander.rs:1117-1124]: copying definitions under prefixed names, in
    the order of the hash map. *)
Definition copy_prefixed (prefix : bytes) (keys : list bytes) (from to : scope) : scope :=
  fold_left (fun d k => match get k from with
                        | Some m => put (prefix ++ k) m d
                        | None => d
                        end) keys to.

(** [expander.rs:1089-1127]. *)
Definition do_namespace (c : call) (ps : list node) (s : state) : out :=
  let* '(ns, defs, s) := in_frame (exs ps) s in
  match ns with
  | [] => error ENamespace (call_site c)
  | name :: ns' =>
      match atomic name with
      | None => error ENamespace (call_site c)
      | Some a =>
          let* '(sep, body) := namespace_options (b "/") ns' in
          let keys := e_order E (g_seed (x_world s)) (scope_names defs) in
          Ok (body, new_maps 1 (set_defs (copy_prefixed (a_val a ++ sep) keys defs (x_defs s)) s))
      end
  end.

(** [expander.rs:1144-1148] the loop of [%for]. *)
Fixpoint for_each (pat : node) (items body : list node) (s : state) : out :=
  match items with
  | [] => Ok ([], s)
  | i :: items' =>
      let* s := bind_node E pat i s in
      let* '(xs, s) := exs body s in
      let* '(ys, s) := for_each pat items' body s in
      Ok (xs ++ ys, s)
  end.

(** [expander.rs:1129-1151]. *)
Definition do_for (c : call) (ps : list node) (s : state) : out :=
  let* x := arguments rules_for (c_node c) ps in
  let s := touch c s in
  let* pat := need as_node (PInt 1) x in
  let* items := need as_list (PInt 3) x in
  let* body := rest_of as_node x in
  let* '(items, s) := exs items s in
  let* '(ns, _, s) := in_frame (for_each pat items body) s in
  Ok (ns, s).

(** [expander.rs:1153-1301].  The nodes hold [to_string_lossy] of the paths;
    the order is that of the paths themselves. *)
Definition do_glob (c : call) (ps : list node) (s : state) : out :=
  let* '(x, _, s) := eager rules_glob c ps s in
  let* pattern := need as_atom (PInt 1) x in
  let* type := want as_atom (PStr (b "type")) x in
  let* sort := want as_atom (PStr (b "sort")) x in
  let* order := want as_atom (PStr (b "order")) x in
  let* type :=
    match option_map a_val type with
    | None => Ok AnyPath
    | Some t => if beq t (b "file") then Ok OnlyFiles
                else if beq t (b "directory") then Ok OnlyDirs
                else if beq t (b "any") then Ok AnyPath
                else Panic PUnreachable
    end in
  let* sort :=
    match option_map a_val sort with
    | None => Ok ByNone
    | Some k => if beq k (b "modified") then Ok ByModified
                else if beq k (b "created") then Ok ByCreated
                else if beq k (b "name") then Ok ByName
                else if beq k (b "type") then Ok ByType
                else if beq k (b "none") then Ok ByNone
                else Panic PUnreachable
    end in
  let ascending := beq (val_or (b "ascending") order) (b "ascending") in
  match e_glob E (a_val pattern) with
  | None => error EGlob (a_site pattern)
  | Some entries =>
      let* set := glob_collect E type sort entries in
      match set with
      | None => error EGlob (a_site pattern)
      | Some set =>
          let set := if ascending then set else rev set in
          Ok (set_first_ws []
                (map (fun f => Str (Atom (lossy (f_path f)) (a_site pattern) (b " "))) set), s)
      end
  end.

(** [expander.rs:1303-1323] and [1325-1345]. *)
Definition do_text (make : atom -> node) (k : ekind) (c : call) (ps : list node) (s : state)
  : out :=
  let* '(ns, s) := exs ps s in
  match atoms ns with
  | inr n => error k (node_site n)
  | inl l => Ok ([make (here c (flat_map (fun a => a_ws a ++ a_val a) l))], touch c s)
  end.

(** [expander.rs:1347-1358] and [1360-1371]. *)
Definition do_convert (make : atom -> node) (c : call) (ps : list node) (s : state) : out :=
  let* '(x, _, s) := eager rules_literals c ps s in
  let* l := rest_of as_atom x in
  Ok (map make l, s).

(** Nodes with the whitespace of another list of nodes, position by
    position. *)
Definition with_ws_of (ns ws : list node) : list node :=
  map (fun '(n, w) => set_ws (leading_ws w) n) (combine ns ws).

(** [expander.rs:1373-1398]. *)
Definition do_reverse (c : call) (ps : list node) (s : state) : out :=
  let* '(x, ps, s) := eager rules_reverse c ps s in
  let* l := need as_list (PInt 1) x in
  match ps with
  | Lst _ st ew es w :: _ => Ok ([Lst (with_ws_of (rev l) l) st ew es w], s)
  | _ => Panic PUnreachable
  end.

(** [expander.rs:1427-1461] the keys of the elements. *)
Fixpoint sort_keys (name : bytes) (c : call) (key_site : site) (ns : list node) (s : state)
  : res (list (bytes * node) * state) :=
  match ns with
  | [] => Ok ([], s)
  | n :: ns' =>
      let* '(key, s) :=
        match inv name c [n] s with
        | Err _ => error ESort key_site
        | r => r
        end in
      match key with
      | [k] =>
          match atomic k with
          | None => error ESort (node_site k)
          | Some a =>
              let* '(items, s) := sort_keys name c key_site ns' s in
              Ok ((a_val a, n) :: items, s)
          end
      | _ => error ESort key_site
      end
  end.

(** [expander.rs:1400-1493]. *)
Definition do_sort (c : call) (ps : list node) (s : state) : out :=
  let* '(x, _, s) := eager rules_sort c ps s in
  let* n := need as_node (PInt 1) x in
  let* order := want as_atom (PStr (b "order")) x in
  let* key := want as_atom (PStr (b "key")) x in
  let key_site := match key with Some a => a_site a | None => call_site c end in
  let name := val_or (b "do") key in
  let ascending := beq (val_or (b "ascending") order) (b "ascending") in
  match n with
  | Lst nodes st ew es _ =>
      let* '(items, s) := sort_keys name c key_site nodes s in
      let* sorted :=
        sort_by E (fun x y => if ascending then key_cmp E (fst x) (fst y)
                            else key_cmp E (fst y) (fst x)) items in
      Ok ([Lst (with_ws_of (map snd sorted) nodes) st ew es (call_ws c)], touch c s)
  | _ => error ESort (node_site n)
  end.

(** [expander.rs:1495-1515]. *)
Definition do_join (c : call) (ps : list node) (s : state) : out :=
  let* '(x, _, s) := eager rules_join c ps s in
  let* sep := need as_atom (PInt 1) x in
  let* trailing := want as_atom (PStr (b "trailing")) x in
  let* l := rest_of as_atom x in
  let tail := if beq (val_or (b "false") trailing) (b "true") then a_val sep else [] in
  Ok ([Str (here c (join (a_val sep) (map a_val l) ++ tail))], s).

(** [expander.rs:1517-1536]. *)
Definition do_concat (c : call) (ps : list node) (s : state) : out :=
  let* '(x, _, s) := eager rules_literals c ps s in
  let* l := rest_of as_atom x in
  Ok ([Str (here c (fold_left (fun acc a => acc ++ a_val a) l []))], s).

(** [expander.rs:1546-1549] and [1563-1569]: applying a macro to each
    argument; [%filter] drops results that are a single empty list. *)
Fixpoint map_each (drop_null : bool) (name : bytes) (c : call) (ns : list node) (s : state)
  : out :=
  match ns with
  | [] => Ok ([], s)
  | n :: ns' =>
      let* '(xs, s) := inv name c [n] s in
      let xs := match xs with
                | [x] => if drop_null && null x then [] else xs
                | _ => xs
                end in
      let* '(ys, s) := map_each drop_null name c ns' s in
      Ok (xs ++ ys, s)
  end.

(** [expander.rs:1538-1551] and [1554-1571]. *)
Definition do_map (drop_null : bool) (c : call) (ps : list node) (s : state) : out :=
  let* '(x, _, s) := eager rules_map c ps s in
  let* f := need as_atom (PInt 1) x in
  let* l := rest_of as_node x in
  map_each drop_null (a_val f) c l s.

(** [expander.rs:1573-1589]. *)
Definition splat_node (n : node) : list node :=
  match n with
  | Lst ns _ _ _ w => set_first_ws w ns
  | _ => [n]
  end.
Definition do_splat (c : call) (ps : list node) (s : state) : out :=
  let* '(ns, s) := exs ps s in
  Ok (flat_map splat_node ns, s).

(** [expander.rs:1591-1605]. *)
Definition do_list (c : call) (ps : list node) (s : state) : out :=
  let* '(ns, s) := exs ps s in
  match c_node c with
  | Lst _ st ew es w => Ok ([Lst ns st ew es w], touch c s)
  | _ => Panic PExplicit
  end.

(** [expander.rs:1607-1614]. *)
Definition do_strip (c : call) (ps : list node) (s : state) : out :=
  let* '(ns, s) := exs ps s in
  Ok (set_first_ws [] ns, s).

(** [expander.rs:1616-1625]. *)
Definition do_apply (c : call) (ps : list node) (s : state) : out :=
  let* '(x, _, s) := eager rules_map c ps s in
  let* f := need as_atom (PInt 1) x in
  let* l := rest_of as_node x in
  inv (a_val f) c l s.

(** [expander.rs:1627-1657]. *)
Definition do_lambda (c : call) (ps : list node) (s : state) : out :=
  let* x := arguments rules_lambda (c_node c) ps in
  let* head := need as_node (PInt 1) x in
  let* body := rest_of as_node x in
  let* params :=
    match list_of head, symbol head with
    | Some l, _ => Ok l
    | None, Some _ => Ok [head]
    | None, None => error ELambda (node_site head)
    end in
  let name := b "__lambda" ++ uuid E s (call_site c) in
  let* s := create_macro name params body (touch c s) in
  Ok ([Sym (here c name)], s).

(** [expander.rs:1695-1707] [apply_macro]. *)
Definition apply_macro (m : macro) (c : call) (ps : list node) (s : state) : out :=
  let* '(ns, _, s) :=
    in_frame (fun s =>
      let* s := bind_list E (call_site c) (m_params m) ps s in
      exs (m_body m) s) s in
  Ok (ns, s).

(** [expander.rs:1709-1720] [expand_macro]. *)
Definition call_macro (name : bytes) (c : call) (ps : list node) (s : state) : out :=
  let* '(ps, s) := exs ps s in
  match get name (x_defs s) with
  | None => error EMacroNotFound (call_site c)
  | Some m => apply_macro m c ps s
  end.

Definition run_builtin (m : builtin) : call -> list node -> state -> out :=
  match m with
  | BDefine => do_define | BMatch => do_match | BIfdef => do_ifdef | BDo => do_do
  | BGet => do_get | BRaw => do_text Raw ERaw | BString => do_text Str EString
  | BNumber => do_convert Num | BSymbol => do_convert Sym
  | BInclude => do_include | BEmbed => do_embed | BNamespace => do_namespace
  | BMarkdown => do_markdown | BYaml => do_yaml | BToml => do_toml | BGlob => do_glob
  | BFor => do_for | BSort => do_sort | BReverse => do_reverse | BDate => do_date
  | BTimestamp => do_timestamp | BJoin => do_join | BConcat => do_concat
  | BMap => do_map false | BFilter => do_map true | BSplat => do_splat
  | BList => do_list | BStrip => do_strip | BApply => do_apply | BLambda => do_lambda
  | BLog => do_log | BFormat => do_format | BEnv => do_env
  end.

(** [expander.rs:1722-1766] [expand_invocation]. *)
Definition invoke (name : bytes) : call -> list node -> state -> out :=
  match find_builtin name with
  | Some m => run_builtin m
  | None => call_macro name
  end.

(** [expander.rs:1811-1818]: the first argument of an invocation loses its
    leading whitespace unless that contains a line feed. *)
Definition trim_first (ps : list node) : list node :=
  match ps with
  | [] => []
  | p :: ps' => (if has LF (leading_ws p) then p else set_ws [] p) :: ps'
  end.

(** [expander.rs:1768-1851] [expand_node]. *)
Definition expand_one (n : node) (s : state) : out :=
  match n with
  | Sym a =>
      if starts_with (b "%") (a_val a) then
        match get (skipn 1 (a_val a)) (x_defs s) with
        | None => error EUndefined (a_site a)
        | Some m =>
            match m_params m with
            | _ :: _ => error EUndefined (a_site a)
            | [] =>
                let* '(ns, s) := exs (m_body m) s in
                Ok (set_first_ws (a_ws a) ns, s)
            end
        end
      else Ok ([n], s)
  | Lst [] _ _ _ _ => Ok ([n], s)
  | Lst (head :: tail) st ew es w =>
      let plain s :=
        let* '(ns, s) := exs (head :: tail) s in
        Ok ([Lst ns st ew es w], s) in
      match symbol head with
      | Some a =>
          let '(c, s) := register n s in
          if starts_with (b "%") (a_val a)
          then inv (skipn 1 (a_val a)) c (trim_first tail) s
          else plain s
      | None => plain s
      end
  | Attr k v st w =>
      let* '(ns, s) := ex v s in
      match ns with
      | [] => Panic PIndex
      | x :: ns' => Ok (Attr k x st w :: ns', s)
      end
  | _ => Ok ([n], s)
  end.
End Builtins.

Inductive task := TNode (n : node) | TInvoke (name : bytes) (c : call) (ps : list node).

Fixpoint run (fuel : nat) (t : task) (s : state) : out :=
  match fuel with
  | 0 => OutOfFuel
  | S f =>
      let ex n s := run f (TNode n) s in
      let inv name c ps s := run f (TInvoke name c ps) s in
      match t with
      | TNode n => expand_one ex inv n s
      | TInvoke name c ps => invoke ex inv name c ps s
      end
  end.

Definition expand_node (fuel : nat) (n : node) (s : state) : out := run fuel (TNode n) s.
Definition expand_nodes (fuel : nat) (ns : list node) (s : state) : out :=
  exs (expand_node fuel) ns s.
Definition expand_invocation (fuel : nat) (name : bytes) (c : call) (ps : list node)
  (s : state) : out := run fuel (TInvoke name c ps) s.

(** [expander.rs:1862-1866] [expand], on a new expander for a source. *)
Definition expand (fuel : nat) (path text : bytes) : out :=
  let* tree := parse (e_unescape E) 0 text in
  expand_nodes fuel tree (initial path text).
End WithEnv.
