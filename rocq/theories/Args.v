(** * Model of macro argument parsing

    [crates/seam/src/parse/macros.rs] and the code generated by the
    procedural macro [arguments!]
    ([crates/seam_argparse_proc_macro/src/lib.rs]). *)

From Coq Require Import List Ascii Bool Arith.
From Verif Require Import Text Res Ast.
Import ListNotations.

(** [macros.rs:13-17] [enum ArgPredicate].  A regular expression is
    represented by the set of strings it matches. *)
Inductive pred :=
| Exactly (value : bytes)
| Matching (regex : bytes -> bool)
| Satisfying (test : node -> bool).

(** [macros.rs:61-69] [enum ArgType]. *)
Inductive argtype :=
| TLiteral (ps : list pred)
| TString (ps : list pred)
| TSymbol (ps : list pred)
| TNumber (ps : list pred)
| TSymbolic (ps : list pred)
| TList (ts : list argtype)
| TAny (ps : list pred).

(** [macros.rs:37-50] [ArgPredicate::check] with [check_node] (20-36).  Only
    success matters: [check_all] replaces the error. *)
Definition pred_ok (p : pred) (n : node) : bool :=
  match p with
  | Exactly v => match atomic n with Some a => beq (a_val a) v | None => false end
  | Matching r => match atomic n with Some a => r (a_val a) | None => false end
  | Satisfying t => t n
  end.

(** [macros.rs:72-98] [check_all]. *)
Definition check_all (ps : list pred) (n : node) : res unit :=
  match ps with
  | [] => Ok tt
  | _ => if existsb (fun p => pred_ok p n) ps then Ok tt
         else Err (EErr EArgValue (node_site n))
  end.

(** [macros.rs:114-155] [ArgType::check]. *)
Fixpoint check (t : argtype) (n : node) {struct t} : res unit :=
  let mismatch := Err (EErr EArgType (node_site n)) in
  match n with
  | Sym _ =>
      match t with
      | TLiteral ps | TSymbol ps | TSymbolic ps | TAny ps => check_all ps n
      | _ => mismatch
      end
  | Str _ | Raw _ =>
      match t with
      | TLiteral ps | TString ps | TAny ps => check_all ps n
      | _ => mismatch
      end
  | Num _ =>
      match t with
      | TLiteral ps | TSymbolic ps | TNumber ps | TAny ps => check_all ps n
      | _ => mismatch
      end
  | Lst nodes _ _ _ _ =>
      match t with
      | TList ts =>
          if negb (length ts =? 0) && negb (length nodes =? length ts)
          then Err (EErr EArgType (node_site n))
          else (fix zip (ts : list argtype) (ns : list node) : res unit :=
                  match ts, ns with
                  | t :: ts', n :: ns' => let* _ := check t n in zip ts' ns'
                  | _, _ => Ok tt
                  end) ts nodes
      | TAny ps => check_all ps n
      | _ => mismatch
      end
  | Attr _ _ _ _ =>
      match t with
      | TAny ps => check_all ps n
      | _ => Err (EErr EArgAttribute (node_site n))
      end
  end.

(** [macros.rs:159-162] [enum Arg]. *)
Inductive arg := Mandatory (t : argtype) | Optional (t : argtype).
Definition argtype_of (a : arg) : argtype :=
  match a with Mandatory t | Optional t => t end.
Definition is_mandatory (a : arg) : bool :=
  match a with Mandatory _ => true | Optional _ => false end.

(** [macros.rs:174-175] [enum ArgPos]. *)
Inductive argpos := PInt (i : nat) | PStr (k : bytes).
Definition argpos_eqb (x y : argpos) : bool :=
  match x, y with
  | PInt i, PInt j => i =? j
  | PStr i, PStr j => beq i j
  | _, _ => false
  end.

(** [macros.rs:234-246] [ArgPattern], [ArgRules].  The pattern of a rule is
    given by the finite set of positions it matches, as computed by
    [parse_finite_pattern] (proc macro 392-456, modelled in [Schema]). *)
Record rule := Rule { r_pos : list argpos; r_arg : arg }.
Record rules := Rules { patterns : list rule; trailing : option argtype }.

Definition rule_matches (p : argpos) (r : rule) : bool :=
  existsb (argpos_eqb p) (r_pos r).

(** [macros.rs:269-278] [count_mandatory]. *)
Definition count_mandatory (rs : rules) : nat :=
  length (List.filter (fun r => is_mandatory (r_arg r)) (patterns rs)).

(** [macros.rs:281-288] [ArgParser]: the hash maps are association lists,
    newest binding first. *)
Record parsed := Parsed {
  p_num : list (nat * node); p_named : list (bytes * node); p_rest : list node
}.

(** [macros.rs:296-360] the loop of [ArgParser::new]; [position] and
    [mandatory] are the counters. *)
Fixpoint parse_params (rs : rules) (ps : list node) (position mandatory : nat)
  (acc : parsed) : res (parsed * nat) :=
  match ps with
  | [] => Ok (acc, mandatory)
  | p :: ps' =>
      let '(matcher, param, position) :=
        match p with
        | Attr k v _ _ => (PStr k, v, position)
        | _ => (PInt (S position), p, S position)
        end in
      match find (rule_matches matcher) (patterns rs) with
      | Some r =>
          let* _ := check (argtype_of (r_arg r)) param in
          let acc :=
            match matcher with
            | PInt i => Parsed ((i, param) :: p_num acc) (p_named acc) (p_rest acc)
            | PStr k => Parsed (p_num acc) ((k, param) :: p_named acc) (p_rest acc)
            end in
          parse_params rs ps' position
            (if is_mandatory (r_arg r) then S mandatory else mandatory) acc
      | None =>
          match trailing rs with
          | Some t =>
              let* _ := check t p in
              parse_params rs ps' position mandatory
                (Parsed (p_num acc) (p_named acc) (p_rest acc ++ [p]))
          | None =>
              Err (EErr (match p with Attr _ _ _ _ => EArgNamed | _ => EArgExcess end)
                        (node_site p))
          end
      end
  end.

(** [macros.rs:291-373] [ArgParser::new]. *)
Definition parse_args (rs : rules) (call : node) (ps : list node) : res parsed :=
  let* '(acc, mandatory) := parse_params rs ps 0 0 (Parsed [] [] []) in
  let last_site := match rev ps with n :: _ => node_site n | [] => node_site call end in
  if mandatory <? count_mandatory rs then Err (EErr EArgMissing last_site)
  else Ok acc.

(** Values of the fields of the generated argument structure (proc macro,
    458-466): [Node], [Vec<ParseNode>] or [ParseNode]. *)
Inductive value := VAtom (a : atom) | VList (ns : list node) | VNode (n : node).

(** [TryFrom<ParseNode>] ([parser.rs:281-310]) followed by [expect]. *)
Definition convert (t : argtype) (n : node) : res value :=
  match t with
  | TList _ => match list_of n with Some ns => Ok (VList ns) | None => Panic PUnwrap end
  | TAny _ => Ok (VNode n)
  | _ => match atomic n with Some a => Ok (VAtom a) | None => Panic PUnwrap end
  end.

Fixpoint assoc_nat {A} (i : nat) (l : list (nat * A)) : option A :=
  match l with
  | [] => None
  | (j, x) :: l' => if i =? j then Some x else assoc_nat i l'
  end.
Fixpoint assoc {A} (k : bytes) (l : list (bytes * A)) : option A :=
  match l with
  | [] => None
  | (j, x) :: l' => if beq k j then Some x else assoc k l'
  end.

(** [macros.rs:375-405] [get_optional] and, below, [get]. *)
Definition get_param (p : parsed) (pos : argpos) : option node :=
  match pos with
  | PInt i => assoc_nat i (p_num p)
  | PStr k => assoc k (p_named p)
  end.

(** The argument structure: values by position or keyword, and the rest. *)
Record args := Args { x_args : list (argpos * value); x_rest : list value }.

(** Extraction of one argument (proc macro, 246-270 and 276-310). *)
Definition extract_one (call : node) (p : parsed) (a : arg) (pos : argpos)
  : res (list (argpos * value)) :=
  match get_param p pos with
  | Some n => let* v := convert (argtype_of a) n in Ok [(pos, v)]
  | None => if is_mandatory a then Err (EErr EArgMissing (node_site call)) else Ok []
  end.

(** The block generated by [arguments!] (proc macro, 333-364).
    Simplification: positional arguments are extracted in the order of the
    rules, not by number, and named ones in the order of the rules, not of a
    compile-time hash map; [Schema.generated] has the exact order, and C56
    proves that it makes no difference. *)
Definition arguments (rs : rules) (call : node) (ps : list node) : res args :=
  let* p := parse_args rs call ps in
  let* xs := mapr (fun '(a, pos) => extract_one call p a pos)
                  (flat_map (fun r => map (pair (r_arg r)) (r_pos r)) (patterns rs)) in
  let* rest :=
    match trailing rs with
    | Some t => mapr (convert t) (p_rest p)
    | None => Ok []
    end in
  Ok (Args (concat xs) rest).

(** Reading fields of the structure.  Rust's types rule out the wrong kinds;
    here they are panics, proved unreachable. *)
Fixpoint arg_at (pos : argpos) (l : list (argpos * value)) : option value :=
  match l with
  | [] => None
  | (q, v) :: l' => if argpos_eqb pos q then Some v else arg_at pos l'
  end.
Definition as_atom (v : value) : res atom :=
  match v with VAtom a => Ok a | _ => Panic PUnwrap end.
Definition as_list (v : value) : res (list node) :=
  match v with VList ns => Ok ns | _ => Panic PUnwrap end.
Definition as_node (v : value) : res node :=
  match v with VNode n => Ok n | _ => Panic PUnwrap end.
Definition need {A} (as_ : value -> res A) (pos : argpos) (x : args) : res A :=
  match arg_at pos (x_args x) with Some v => as_ v | None => Panic PUnwrap end.
Definition want {A} (as_ : value -> res A) (pos : argpos) (x : args) : res (option A) :=
  match arg_at pos (x_args x) with Some v => rmap Some (as_ v) | None => Ok None end.
Definition rest_of {A} (as_ : value -> res A) (x : args) : res (list A) :=
  mapr as_ (x_rest x).

(** Shorthands for rule tables. *)
Definition mandatory (i : nat) (t : argtype) : rule := Rule [PInt i] (Mandatory t).
Definition optional (i : nat) (t : argtype) : rule := Rule [PInt i] (Optional t).
Definition option_named (k : bytes) (t : argtype) : rule := Rule [PStr k] (Optional t).
Definition one_of (l : list bytes) : list pred := map Exactly l.
