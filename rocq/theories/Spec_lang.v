(** * The macro language as a set of rules

    A big-step semantics of seam's macro language: what a node means in a
    context, given by inference rules, without recursion budgets, invocation
    vectors, hash-map seeds or freed buffers.  It can be read as a reference
    manual of the language. *)

From Coq Require Import String List Ascii Bool Arith NArith ZArith Permutation.
From Verif Require Import Text Res Ast Env Scope State Numbers Data Sorting Paths
  Spec_args Spec_expand Spec_builtin Spec_bind Spec_control Spec_sort Spec_world Spec_errors Spec_scope Spec_place Spec_events.
From Verif Require Import Args Expander.
Import ListNotations.

(** ** Contexts and results *)

(** What a program can observe: the definitions, the lines logged, and the
    files read so far, the main one included. *)
Record context := Context {
  k_defs : scope;
  k_log : list (site * bytes);
  k_files : list (bytes * bytes)
}.
Definition with_defs (d : scope) (c : context) : context := Context d (k_log c) (k_files c).
Definition declare (name : bytes) (m : macro) (c : context) : context :=
  with_defs (put name m (k_defs c)) c.
Definition reading (path text : bytes) (c : context) : context :=
  Context (k_defs c) (k_log c) (k_files c ++ [(path, text)]).
Definition saying (st : site) (line : bytes) (c : context) : context :=
  Context (k_defs c) (k_log c ++ [(st, line)]) (k_files c).

Definition result : Type := res (list node * context).

(** The context of a state of the expander, and the result of a run. *)
Definition visible (s : state) : context :=
  Context (x_defs s) (g_log (x_world s)) (g_sources (x_world s)).
Definition seen (r : out) : result :=
  match r with
  | Ok (ns, s) => Ok (ns, visible s)
  | Err e => Err e | Panic p => Panic p | Hang => Hang | OutOfFuel => OutOfFuel
  end.

(** Output changed by [f]. *)
Definition changed (f : list node -> list node) (q : result) : result :=
  match q with
  | Ok (ns, c) => Ok (f ns, c)
  | Err e => Err e | Panic p => Panic p | Hang => Hang | OutOfFuel => OutOfFuel
  end.
(** The end of a block that began in context [c]: its definitions are
    forgotten. *)
Definition within (c : context) (q : result) : result :=
  match q with
  | Ok (ns, c1) => Ok (ns, with_defs (k_defs c) c1)
  | Err e => Err e | Panic p => Panic p | Hang => Hang | OutOfFuel => OutOfFuel
  end.

(** ** Macros that work on the values of their arguments

    [n] is the call, [vs] the values of the arguments.  Rules for refused
    arguments are below. *)

Section Values.
Variable E : env.
Variable n : node.
Variable vs : list node.
Variable c : context.

Inductive does : result -> Prop :=
| does_all : does (Ok (vs, c)).

Inductive gets : result -> Prop :=
| gets_item p path v m :
    accepted rules_get vs -> positionals vs = [p; v] -> atomic p = Some path ->
    reaches (split (chosen (b "separator") (b "/") vs) (a_val path)) v m -> gets (Ok ([m], c))
| gets_stuck p path v m :
    accepted rules_get vs -> positionals vs = [p; v] -> atomic p = Some path ->
    stuck (split (chosen (b "separator") (b "/") vs) (a_val path)) v m ->
    gets (Err (EErr EGet (node_site m))).

(** %raw and %string. *)
Inductive quotes (make : atom -> node) (k : ekind) : result -> Prop :=
| quotes_atoms al :
    map (@Some atom) al = map atomic vs ->
    quotes make k (Ok ([make (in_place n (flat_map (fun a => a_ws a ++ a_val a) al))], c))
| quotes_other v : first_without literal vs v -> quotes make k (Err (EErr k (node_site v))).

(** %number and %symbol. *)
Inductive converts (make : atom -> node) : result -> Prop :=
| converts_atoms al : map (@Some atom) al = map atomic vs -> converts make (Ok (map make al, c)).

Inductive concats : result -> Prop :=
| concats_texts pieces :
    texts vs = Some pieces -> concats (Ok ([Str (in_place n (separated [] pieces))], c)).

Inductive joins : result -> Prop :=
| joins_texts sep pieces :
    accepted rules_join vs -> texts (positionals vs) = Some (sep :: pieces) ->
    joins (Ok ([Str (in_place n (separated sep pieces ++
                 (if beq (chosen (b "trailing") (b "false") vs) (b "true") then sep else [])))], c)).

Inductive embeds : result -> Prop :=
| embeds_file v a p text :
    vs = [v] -> atomic v = Some a ->
    first_readable E (candidates false (e_includes E) (a_val a)) p text ->
    embeds (Ok ([Str (in_place n text)], c))
| embeds_missing v a :
    vs = [v] -> atomic v = Some a ->
    none_readable E (candidates false (e_includes E) (a_val a)) ->
    embeds (Err (EErr EEmbed (a_site a)))
| embeds_other v : vs = [v] -> atomic v = None -> embeds (Err (EErr EEmbed (node_site v)))
| embeds_count : length vs <> 1 -> embeds (Err (EErr EEmbed (node_site n))).

(** The document in the only positional argument; what it gives and defines is
    said in Spec_events.v. *)
Definition document (rs : rules) (a : atom) : Prop :=
  exists p, accepted rs vs /\ positionals vs = [p] /\ atomic p = Some a.
Notation separator := (chosen (b "separator") (b "/") vs).

Inductive reads_yaml : result -> Prop :=
| reads_yaml_ok a ns d :
    document rules_yaml a ->
    YamlText E (a_val a) separator (node_site n) (k_defs c) (Ok (Ok ns, d)) ->
    reads_yaml (Ok (ns, with_defs d c))
| reads_yaml_error a q d r :
    document rules_yaml a ->
    YamlText E (a_val a) separator (node_site n) (k_defs c) (Ok (q, d)) -> fails q r ->
    reads_yaml r
| reads_yaml_panic a q r :
    document rules_yaml a ->
    YamlText E (a_val a) separator (node_site n) (k_defs c) q -> fails q r -> reads_yaml r.

Inductive reads_toml : result -> Prop :=
| reads_toml_ok a ns d :
    document rules_yaml a ->
    TomlText E (a_val a) separator (node_site n) (k_defs c) (Ok ns, d) ->
    reads_toml (Ok (ns, with_defs d c))
| reads_toml_error a q d r :
    document rules_yaml a ->
    TomlText E (a_val a) separator (node_site n) (k_defs c) (q, d) -> fails q r ->
    reads_toml r.

(** The front matter of a Markdown document, with the definitions it leaves
    also if it is in error. *)
Inductive front (a : atom) : res (res unit * scope) -> Prop :=
| front_none : e_front E (a_val a) = None \/ e_front E (a_val a) = Some FNone ->
    front a (Ok (Err (EErr EMarkdown (a_site a)), k_defs c))
| front_yaml text q d :
    e_front E (a_val a) = Some (FYaml text) ->
    YamlText E text separator (node_site n) (k_defs c) (Ok (q, d)) ->
    front a (Ok (rmap (fun _ => tt) q, d))
| front_yaml_panic text q r :
    e_front E (a_val a) = Some (FYaml text) ->
    YamlText E text separator (node_site n) (k_defs c) q -> fails q r ->
    front a r
| front_toml text q d :
    e_front E (a_val a) = Some (FToml text) ->
    TomlText E text separator (node_site n) (k_defs c) (q, d) ->
    front a (Ok (rmap (fun _ => tt) q, d)).
Inductive html (a : atom) (d : scope) : result -> Prop :=
| html_ok text : e_html E (a_val a) = Some text ->
    html a d (Ok ([Raw (in_place n text)], with_defs d c))
| html_error : e_html E (a_val a) = None -> html a d (Err (EErr EMarkdown (a_site a))).

Inductive marks : result -> Prop :=
| marks_content a r :
    document rules_markdown a -> chosen (b "only") [] vs = b "content" ->
    html a (k_defs c) r -> marks r
| marks_front a d :
    document rules_markdown a -> chosen (b "only") [] vs = b "frontmatter" ->
    front a (Ok (Ok tt, d)) -> marks (Ok ([], with_defs d c))
| marks_no_front a q d r :
    document rules_markdown a -> chosen (b "only") [] vs = b "frontmatter" ->
    front a (Ok (q, d)) -> fails q r -> marks r
| marks_both a q d r :
    document rules_markdown a -> keyword_value (b "only") vs = None ->
    front a (Ok (q, d)) -> html a d r -> marks r
| marks_panic a q r :
    document rules_markdown a -> chosen (b "only") [] vs <> b "content" ->
    front a q -> fails q r -> marks r.

(** The entries found, without those of another type, collected in a sorted
    set. *)
Inductive lists (pat : atom) (t : path_type) (k : sort_key) (up : bool) : result -> Prop :=
| lists_ok l fs cmp out :
    e_glob E (a_val pat) = Some l -> all_found l = Some fs -> compares_by k cmp ->
    collected E cmp (listing t fs) out ->
    lists pat t k up (Ok (path_nodes (a_site pat) (if up then out else rev out), c))
| lists_pattern :
    e_glob E (a_val pat) = None -> lists pat t k up (Err (EErr EGlob (a_site pat)))
| lists_error good rest fs :
    e_glob E (a_val pat) = Some (good ++ None :: rest) -> all_found good = Some fs ->
    lists pat t k up (Err (EErr EGlob (a_site pat)))
| lists_panic good rest fs p :
    e_glob E (a_val pat) = Some (good ++ Some (p, None) :: rest) -> all_found good = Some fs ->
    lists pat t k up (Panic PUnwrap).
Inductive globs : result -> Prop :=
| globs_files pat t k up r : listing_args vs pat t k up -> lists pat t k up r -> globs r.

Inductive dates : result -> Prop :=
| dates_ok fmt time off text :
    dating vs fmt time -> zone E (zone_given vs) (Ok off) ->
    dated E fmt off (zone_site n vs) time (Ok text) -> dates (Ok ([Str (in_place n text)], c))
| dates_fails fmt time off q r :
    dating vs fmt time -> zone E (zone_given vs) (Ok off) ->
    dated E fmt off (zone_site n vs) time q -> fails q r -> dates r
| dates_zone fmt time q r :
    dating vs fmt time -> zone E (zone_given vs) q -> fails q r -> dates r.
Inductive stamps : result -> Prop :=
| stamps_ok fmt date off t :
    timing vs fmt date -> zone E (zone_given vs) (Ok off) ->
    timed E fmt date off (node_site n) (zone_site n vs) (Ok t) ->
    stamps (Ok ([Num (in_place n (show_Z t))], c))
| stamps_fails fmt date off q r :
    timing vs fmt date -> zone E (zone_given vs) (Ok off) ->
    timed E fmt date off (node_site n) (zone_site n vs) q -> fails q r -> stamps r
| stamps_zone fmt date q r :
    timing vs fmt date -> zone E (zone_given vs) q -> fails q r -> stamps r.

Inductive reverses : result -> Prop :=
| reverses_list ns st ew es w ns' :
    vs = [Lst ns st ew es w] -> reversal ns ns' -> reverses (Ok ([Lst ns' st ew es w], c)).

(** A list among the values is replaced by its elements. *)
Inductive splats : result -> Prop :=
| splats_all :
    splats (Ok (flat_map (fun v => match v with
                                   | Lst ns _ _ _ w => respaced w ns
                                   | _ => [v]
                                   end) vs, c)).

Inductive enlists : result -> Prop :=
| enlists_all ns st ew es w : n = Lst ns st ew es w -> enlists (Ok ([Lst vs st ew es w], c))
| enlists_panic : list_of n = None -> enlists (Panic PExplicit).

Inductive strips : result -> Prop :=
| strips_first : strips (Ok (respaced [] vs, c)).

Inductive logs_line : result -> Prop :=
| logs_texts words : texts vs = Some words ->
    logs_line (Ok ([], saying (node_site n) (separated (b " ") words) c))
| logs_other : texts vs = None -> logs_line (Err (EErr ELog (node_site n))).

Inductive formats : result -> Prop :=
| formats_ok fmt rest l text :
    vs = Str fmt :: rest -> e_template E (a_val fmt) = true -> Forall2 format_value rest l ->
    e_format E (a_val fmt) l = Some text -> formats (Ok ([Str (in_place n text)], c))
| formats_fails fmt rest l :
    vs = Str fmt :: rest -> e_template E (a_val fmt) = true -> Forall2 format_value rest l ->
    e_format E (a_val fmt) l = None -> formats (Err (EErr EFormat (a_site fmt)))
| formats_value fmt rest v :
    vs = Str fmt :: rest -> e_template E (a_val fmt) = true ->
    first_without (fun v => literal (meant v)) rest v ->
    formats (Err (EErr EFormat (node_site (meant v))))
| formats_template fmt rest :
    vs = Str fmt :: rest -> e_template E (a_val fmt) = false ->
    formats (Err (EErr EFormat (a_site fmt)))
| formats_other v rest :
    vs = v :: rest -> (forall a, v <> Str a) -> formats (Err (EErr EFormat (node_site v)))
| formats_none : vs = [] -> formats (Err (EErr EFormat (node_site n))).

Inductive looks_up : result -> Prop :=
| looks_up_ok v a text :
    vs = [v] -> atomic v = Some a -> e_getenv E (a_val a) = Some text ->
    looks_up (Ok ([Str (Atom text (a_site a) (a_ws a))], c))
| looks_up_unset v a :
    vs = [v] -> atomic v = Some a -> e_getenv E (a_val a) = None ->
    looks_up (Err (EErr EEnv (a_site a)))
| looks_up_other v : vs = [v] -> atomic v = None -> looks_up (Err (EErr EEnv (node_site v)))
| looks_up_count : length vs <> 1 -> looks_up (Err (EErr EEnv (node_site n))).
End Values.

(** The macros, with their meaning on values. *)
Definition on_values : list (bytes * (env -> node -> list node -> context -> result -> Prop)) :=
  [(b "do", fun _ _ vs c => does vs c);
   (b "get", fun _ _ vs c => gets vs c);
   (b "raw", fun _ n vs c => quotes n vs c Raw ERaw);
   (b "string", fun _ n vs c => quotes n vs c Str EString);
   (b "number", fun _ _ vs c => converts vs c Num);
   (b "symbol", fun _ _ vs c => converts vs c Sym);
   (b "embed", embeds);
   (b "markdown", marks);
   (b "yaml", reads_yaml);
   (b "json", reads_yaml);
   (b "toml", reads_toml);
   (b "glob", fun E _ vs c => globs E vs c);
   (b "reverse", fun _ _ vs c => reverses vs c);
   (b "date", dates);
   (b "timestamp", stamps);
   (b "join", fun _ n vs c => joins n vs c);
   (b "concat", fun _ n vs c => concats n vs c);
   (b "splat", fun _ _ vs c => splats vs c);
   (b "list", fun _ n vs c => enlists n vs c);
   (b "strip", fun _ _ vs c => strips vs c);
   (b "log", fun _ n vs c => logs_line n vs c);
   (b "format", formats);
   (b "os/env", looks_up)].

(** Names that cannot be given to a new macro; all those whose arguments are
    evaluated first. *)
Definition reserved (name : bytes) : Prop := In name (map fst builtins).
Definition evaluates_first (name : bytes) : Prop :=
  ~ reserved name \/ In name (map fst on_values) \/
  In name (map b ["include"; "namespace"; "sort"; "map"; "filter"; "apply"]%string).

(** ** Heads of definitions *)

Definition single_rests (params : list node) : Prop :=
  length (rest_names params) <= 1 /\ length (kwrest_names params) <= 1.
(** The node to blame if [head] is not the head of a definition. *)
Inductive no_head : node -> node -> Prop :=
| no_head_kind head : symbol head = None -> list_of head = None -> no_head head head
| no_head_empty st ew es w : no_head (Lst [] st ew es w) (Lst [] st ew es w)
| no_head_name x l st ew es w : symbol x = None -> no_head (Lst (x :: l) st ew es w) x.
(** The parameters of an anonymous macro. *)
Inductive lambda_params : node -> list node -> Prop :=
| lambda_list params st ew es w : lambda_params (Lst params st ew es w) params
| lambda_single a : lambda_params (Sym a) [Sym a].
(** Its name, made from the place of the call. *)
Definition lambda_name (E : env) (c : context) (st : site) : bytes :=
  b "__lambda" ++
  show_Z (Z.of_N (e_hash E (fst (nth (s_src st) (k_files c) ([], [])))
                    (s_line st) (s_off st) (s_col st) (s_span st))) ++ b "-" ++ show_nat (s_off st).

(** The key macro of %sort, and the site of its name. *)
Definition key_macro (vs : list node) : bytes := chosen (b "key") (b "do") vs.
Definition key_place (n : node) (vs : list node) : site :=
  match keyword_value (b "key") vs with Some k => node_site k | None => node_site n end.
Definition sort_order (E : env) (vs : list node) : bytes * node -> bytes * node -> comparison :=
  by_key E (negb (beq (chosen (b "order") (b "ascending") vs) (b "ascending"))).

(** ** The rules *)

(** Node [n] means [r] in context [c]. *)
Inductive means (E : env) : node -> context -> result -> Prop :=
| means_atom n a c :
    atomic n = Some a -> symbol n = None -> means E n c (Ok ([n], c))
| means_symbol a c :
    (forall name, a_val a <> b "%" ++ name) -> means E (Sym a) c (Ok ([Sym a], c))
| means_variable a name body c q :
    a_val a = b "%" ++ name -> get name (k_defs c) = Some (variable body) ->
    means_all E body c q -> means E (Sym a) c (changed (respaced (a_ws a)) q)
| means_undefined a name c :
    a_val a = b "%" ++ name -> (forall body, get name (k_defs c) <> Some (variable body)) ->
    means E (Sym a) c (Err (EErr EUndefined (a_site a)))
| means_call n name args c r :
    is_call name args n -> runs E name n (received args) c r -> means E n c r
| means_list ns st ew es w c q :
    (forall name args, ~ is_call name args (Lst ns st ew es w)) ->
    means_all E ns c q -> means E (Lst ns st ew es w) c (changed (fun vs => [Lst vs st ew es w]) q)
| means_attr k v st w c x xs c1 :
    means E v c (Ok (x :: xs, c1)) -> means E (Attr k v st w) c (Ok (Attr k x st w :: xs, c1))
| means_attr_nothing k v st w c c1 :
    means E v c (Ok ([], c1)) -> means E (Attr k v st w) c (Panic PIndex)
| means_attr_fails k v st w c q r :
    means E v c q -> fails q r -> means E (Attr k v st w) c r

(** The nodes [ns], from left to right. *)
with means_all (E : env) : list node -> context -> result -> Prop :=
| means_nil c : means_all E [] c (Ok ([], c))
| means_cons n ns c xs c1 q :
    means E n c (Ok (xs, c1)) -> means_all E ns c1 q ->
    means_all E (n :: ns) c (changed (app xs) q)
| means_stop n ns c q r :
    means E n c q -> fails q r -> means_all E (n :: ns) c r

(** The macro [name], called by [n], with unevaluated arguments [ps]. *)
with runs (E : env) : bytes -> node -> list node -> context -> result -> Prop :=
(** Arguments that are evaluated first, and those that are refused. *)
| runs_values name meaning n ps c vs c1 r :
    In (name, meaning) on_values -> means_all E ps c (Ok (vs, c1)) -> meaning E n vs c1 r ->
    runs E name n ps c r
| runs_fails name n ps c q r :
    evaluates_first name -> means_all E ps c q -> fails q r -> runs E name n ps c r
| runs_refused name rs n ps c vs c1 r :
    In (name, rs) eager_rules -> means_all E ps c (Ok (vs, c1)) -> refused rs n vs r ->
    runs E name n ps c r
(** Macros of the program. *)
| runs_body name n ps c vs c1 m l q :
    ~ reserved name -> means_all E ps c (Ok (vs, c1)) -> get name (k_defs c1) = Some m ->
    binds_list (m_params m) vs l ->
    means_all E (m_body m) (with_defs (assign l (k_defs c1)) c1) q ->
    runs E name n ps c (within c1 q)
| runs_mismatch name n ps c vs c1 m k st :
    ~ reserved name -> means_all E ps c (Ok (vs, c1)) -> get name (k_defs c1) = Some m ->
    mismatch_args (node_site n) (m_params m) vs k st ->
    runs E name n ps c (Err (EErr k st))
| runs_unknown name n ps c vs c1 :
    ~ reserved name -> means_all E ps c (Ok (vs, c1)) -> get name (k_defs c1) = None ->
    runs E name n ps c (Err (EErr EMacroNotFound (node_site n)))
(** %define *)
| define_variable n a body c vs c1 :
    means_all E body c (Ok (vs, c1)) ->
    runs E (b "define") n (Sym a :: body) c (Ok ([], declare (a_val a) (variable vs) c1))
| define_fails n a body c q r :
    means_all E body c q -> fails q r -> runs E (b "define") n (Sym a :: body) c r
| define_macro n a params st ew es w body c :
    single_rests params ->
    runs E (b "define") n (Lst (Sym a :: params) st ew es w :: body) c
      (Ok ([], declare (a_val a) (Macro params body) c))
| define_excess n a params st ew es w body c p :
    excess_rest params p ->
    runs E (b "define") n (Lst (Sym a :: params) st ew es w :: body) c
      (Err (EErr EBindMultiRest (node_site p)))
| define_head n head body c bad :
    no_head head bad -> runs E (b "define") n (head :: body) c (Err (EErr EDefine (node_site bad)))
| define_nothing n c : runs E (b "define") n [] c (Err (EErr EDefine (node_site n)))
(** %lambda *)
| lambda_made n ps c head more params :
    positionals ps = head :: more -> lambda_params head params -> single_rests params ->
    runs E (b "lambda") n ps c
      (Ok ([Sym (in_place n (lambda_name E c (node_site n)))],
           declare (lambda_name E c (node_site n)) (Macro params (drop_positionals 1 ps)) c))
| lambda_excess n ps c head more params p :
    positionals ps = head :: more -> lambda_params head params -> excess_rest params p ->
    runs E (b "lambda") n ps c (Err (EErr EBindMultiRest (node_site p)))
| lambda_head n ps c head more :
    positionals ps = head :: more -> symbol head = None -> list_of head = None ->
    runs E (b "lambda") n ps c (Err (EErr ELambda (node_site head)))
| lambda_refused n ps c r : refused rules_lambda n ps r -> runs E (b "lambda") n ps c r
(** %match *)
| match_value n e cs c v c1 r :
    means E e c (Ok ([v], c1)) -> clauses E v cs c1 r -> runs E (b "match") n (e :: cs) c r
| match_fails n e cs c q r :
    means E e c q -> fails q r -> runs E (b "match") n (e :: cs) c r
| match_values n e cs c vs c1 :
    means E e c (Ok (vs, c1)) -> length vs <> 1 ->
    runs E (b "match") n (e :: cs) c (Err (EErr EMatch (node_site e)))
| match_nothing n c : runs E (b "match") n [] c (Err (EErr EMatch (node_site n)))
(** %ifdef *)
| ifdef_yes n cond a yes no c q :
    length no <= 1 -> atomic cond = Some a -> get (a_val a) (k_defs c) <> None ->
    means E yes c q ->
    runs E (b "ifdef") n (cond :: yes :: no) c (changed (respaced (leading_ws n)) q)
| ifdef_no n cond a yes no c q :
    atomic cond = Some a -> get (a_val a) (k_defs c) = None -> means E no c q ->
    runs E (b "ifdef") n [cond; yes; no] c (changed (respaced (leading_ws n)) q)
| ifdef_not n cond a yes c :
    atomic cond = Some a -> get (a_val a) (k_defs c) = None ->
    runs E (b "ifdef") n [cond; yes] c (Ok ([], c))
| ifdef_name n cond yes no c :
    length no <= 1 -> atomic cond = None ->
    runs E (b "ifdef") n (cond :: yes :: no) c (Err (EErr EIfdef (node_site cond)))
| ifdef_count n ps c :
    length ps <> 2 -> length ps <> 3 -> runs E (b "ifdef") n ps c (Err (EErr EIfdef (node_site n)))
(** %include *)
| include_file n ps c v a c1 path text tree q :
    means_all E ps c (Ok ([v], c1)) -> atomic v = Some a ->
    first_readable E (candidates true (e_includes E) (a_val a)) path text ->
    Syntax (e_unescape E) (length (k_files c1)) text (Ok tree) ->
    means_all E tree (reading path text c1) q ->
    runs E (b "include") n ps c (changed (respaced (leading_ws n)) q)
| include_syntax n ps c v a c1 path text e :
    means_all E ps c (Ok ([v], c1)) -> atomic v = Some a ->
    first_readable E (candidates true (e_includes E) (a_val a)) path text ->
    Syntax (e_unescape E) (length (k_files c1)) text (Err e) ->
    runs E (b "include") n ps c (Err (EErr EInclude (node_site n)))
| include_stops n ps c v a c1 path text q r :
    means_all E ps c (Ok ([v], c1)) -> atomic v = Some a ->
    first_readable E (candidates true (e_includes E) (a_val a)) path text ->
    Syntax (e_unescape E) (length (k_files c1)) text q -> (forall e, q <> Err e) -> fails q r ->
    runs E (b "include") n ps c r
| include_missing n ps c v a c1 :
    means_all E ps c (Ok ([v], c1)) -> atomic v = Some a ->
    none_readable E (candidates true (e_includes E) (a_val a)) ->
    runs E (b "include") n ps c (Err (EErr EInclude (a_site a)))
| include_other n ps c v c1 :
    means_all E ps c (Ok ([v], c1)) -> atomic v = None ->
    runs E (b "include") n ps c (Err (EErr EInclude (node_site v)))
| include_count n ps c vs c1 :
    means_all E ps c (Ok (vs, c1)) -> length vs <> 1 ->
    runs E (b "include") n ps c (Err (EErr EInclude (node_site n)))
(** %namespace *)
| namespace_ok n ps c name a rest c1 d :
    means_all E ps c (Ok (name :: rest, c1)) -> atomic name = Some a ->
    options (front_keywords rest) is_separator ->
    imported (a_val a ++ chosen (b "separator") (b "/") (front_keywords rest)) (k_defs c1) (k_defs c) d ->
    runs E (b "namespace") n ps c (Ok (after_keywords rest, with_defs d c1))
| namespace_option n ps c name a rest c1 st :
    means_all E ps c (Ok (name :: rest, c1)) -> atomic name = Some a -> bad_option rest st ->
    runs E (b "namespace") n ps c (Err (EErr ENamespace st))
| namespace_name n ps c vs c1 :
    means_all E ps c (Ok (vs, c1)) ->
    (forall name rest a, vs = name :: rest -> atomic name <> Some a) ->
    runs E (b "namespace") n ps c (Err (EErr ENamespace (node_site n)))
(** %for *)
| for_loop n ps c p i items st ew es w more vs c1 q :
    positionals ps = p :: Sym i :: Lst items st ew es w :: more -> a_val i = b "in" ->
    means_all E items c (Ok (vs, c1)) -> rounds E p (drop_positionals 3 ps) vs c1 q ->
    runs E (b "for") n ps c (within c1 q)
| for_fails n ps c p i items st ew es w more q r :
    positionals ps = p :: Sym i :: Lst items st ew es w :: more -> a_val i = b "in" ->
    means_all E items c q -> fails q r -> runs E (b "for") n ps c r
| for_refused n ps c r : refused rules_for n ps r -> runs E (b "for") n ps c r
(** %map, %filter, %apply *)
| map_all n ps c vs c1 f more r :
    means_all E ps c (Ok (vs, c1)) -> positionals vs = Sym f :: more ->
    each E (a_val f) n drop_none (drop_positionals 1 vs) c1 r -> runs E (b "map") n ps c r
| filter_all n ps c vs c1 f more r :
    means_all E ps c (Ok (vs, c1)) -> positionals vs = Sym f :: more ->
    each E (a_val f) n is_unit (drop_positionals 1 vs) c1 r -> runs E (b "filter") n ps c r
| apply_all n ps c vs c1 f more r :
    means_all E ps c (Ok (vs, c1)) -> positionals vs = Sym f :: more ->
    runs E (a_val f) n (drop_positionals 1 vs) c1 r -> runs E (b "apply") n ps c r
(** %sort *)
| sort_list n ps c vs c1 nodes st ew es w items c2 sorted ns :
    means_all E ps c (Ok (vs, c1)) -> accepted rules_sort vs ->
    positionals vs = [Lst nodes st ew es w] ->
    keys E (key_macro vs) n (key_place n vs) nodes c1 (Ok (items, c2)) ->
    sorts E (sort_order E vs) items (Ok sorted) ->
    arranged (map snd sorted) nodes ns ->
    runs E (b "sort") n ps c (Ok ([Lst ns st ew es (leading_ws n)], c2))
| sort_disorder n ps c vs c1 nodes st ew es w items c2 q r :
    means_all E ps c (Ok (vs, c1)) -> accepted rules_sort vs ->
    positionals vs = [Lst nodes st ew es w] ->
    keys E (key_macro vs) n (key_place n vs) nodes c1 (Ok (items, c2)) ->
    sorts E (sort_order E vs) items q -> fails q r -> runs E (b "sort") n ps c r
| sort_fails n ps c vs c1 nodes st ew es w q r :
    means_all E ps c (Ok (vs, c1)) -> accepted rules_sort vs ->
    positionals vs = [Lst nodes st ew es w] ->
    keys E (key_macro vs) n (key_place n vs) nodes c1 q -> fails q r -> runs E (b "sort") n ps c r
| sort_other n ps c vs c1 v :
    means_all E ps c (Ok (vs, c1)) -> accepted rules_sort vs -> positionals vs = [v] ->
    list_of v = None -> runs E (b "sort") n ps c (Err (EErr ESort (node_site v)))

(** The clauses of %match, on value [v]. *)
with clauses (E : env) : node -> list node -> context -> result -> Prop :=
| clauses_none v c : clauses E v [] c (Ok ([], c))
| clauses_skip v pat body st ew es w cs c p c1 r :
    means E pat c (Ok ([p], c1)) -> (forall l, ~ binds p v l) -> clauses E v cs c1 r ->
    clauses E v (Lst (pat :: body) st ew es w :: cs) c r
| clauses_take v pat body st ew es w cs c p c1 l q :
    means E pat c (Ok ([p], c1)) -> binds p v l ->
    means_all E body (with_defs (assign l (k_defs c1)) c1) q ->
    clauses E v (Lst (pat :: body) st ew es w :: cs) c (within c1 q)
| clauses_fails v pat body st ew es w cs c q r :
    means E pat c q -> fails q r -> clauses E v (Lst (pat :: body) st ew es w :: cs) c r
| clauses_patterns v pat body st ew es w cs c ps c1 :
    means E pat c (Ok (ps, c1)) -> length ps <> 1 ->
    clauses E v (Lst (pat :: body) st ew es w :: cs) c (Err (EErr EMatch (node_site pat)))
| clauses_bad v clause cs c :
    list_of clause = None \/ list_of clause = Some [] ->
    clauses E v (clause :: cs) c (Err (EErr EMatch (node_site clause)))

(** The rounds of %for. *)
with rounds (E : env) : node -> list node -> list node -> context -> result -> Prop :=
| rounds_done p body c : rounds E p body [] c (Ok ([], c))
| rounds_round p body i items c l xs c1 q :
    binds p i l -> means_all E body (with_defs (assign l (k_defs c)) c) (Ok (xs, c1)) ->
    rounds E p body items c1 q -> rounds E p body (i :: items) c (changed (app xs) q)
| rounds_fails p body i items c l q r :
    binds p i l -> means_all E body (with_defs (assign l (k_defs c)) c) q -> fails q r ->
    rounds E p body (i :: items) c r
| rounds_mismatch p body i items c k st :
    mismatch p i k st -> rounds E p body (i :: items) c (Err (EErr k st))

(** A macro applied to each node; results for which [drop] holds are left
    out. *)
with each (E : env) : bytes -> node -> (list node -> bool) -> list node -> context -> result -> Prop :=
| each_none name n drop c : each E name n drop [] c (Ok ([], c))
| each_next name n drop v vs c xs c1 q :
    runs E name n [v] c (Ok (xs, c1)) -> each E name n drop vs c1 q ->
    each E name n drop (v :: vs) c (changed (app (if drop xs then [] else xs)) q)
| each_fails name n drop v vs c q r :
    runs E name n [v] c q -> fails q r -> each E name n drop (v :: vs) c r

(** The sort keys of nodes: the texts that macro [name] gives for them; an
    error of it is reported at [st]. *)
with keys (E : env) : bytes -> node -> site -> list node -> context ->
  res (list (bytes * node) * context) -> Prop :=
| keys_none name n st c : keys E name n st [] c (Ok ([], c))
| keys_next name n st v vs c k a c1 items c2 :
    runs E name n [v] c (Ok ([k], c1)) -> atomic k = Some a ->
    keys E name n st vs c1 (Ok (items, c2)) ->
    keys E name n st (v :: vs) c (Ok ((a_val a, v) :: items, c2))
| keys_later name n st v vs c k a c1 q r :
    runs E name n [v] c (Ok ([k], c1)) -> atomic k = Some a ->
    keys E name n st vs c1 q -> fails q r -> keys E name n st (v :: vs) c r
| keys_other name n st v vs c k c1 :
    runs E name n [v] c (Ok ([k], c1)) -> atomic k = None ->
    keys E name n st (v :: vs) c (Err (EErr ESort (node_site k)))
| keys_count name n st v vs c ks c1 :
    runs E name n [v] c (Ok (ks, c1)) -> length ks <> 1 ->
    keys E name n st (v :: vs) c (Err (EErr ESort st))
| keys_error name n st v vs c e :
    runs E name n [v] c (Err e) -> keys E name n st (v :: vs) c (Err (EErr ESort st))
| keys_stops name n st v vs c q r :
    runs E name n [v] c q -> (forall e, q <> Err e) -> fails q r -> keys E name n st (v :: vs) c r.

Scheme means_mut := Minimality for means Sort Prop
  with means_all_mut := Minimality for means_all Sort Prop
  with runs_mut := Minimality for runs Sort Prop
  with clauses_mut := Minimality for clauses Sort Prop
  with rounds_mut := Minimality for rounds Sort Prop
  with each_mut := Minimality for each Sort Prop
  with keys_mut := Minimality for keys Sort Prop.
Combined Scheme means_mutind from means_mut, means_all_mut, runs_mut, clauses_mut, rounds_mut,
  each_mut, keys_mut.

(** ** Programs *)

(** What the program in file [path] means: its tree, in a context with no
    definitions. *)
Inductive program_means (E : env) (path text : bytes) : result -> Prop :=
| program_tree tree r :
    Syntax (e_unescape E) 0 text (Ok tree) ->
    means_all E tree (Context no_defs [] [(path, text)]) r -> program_means E path text r
| program_syntax q r :
    Syntax (e_unescape E) 0 text q -> fails q r -> program_means E path text r.
