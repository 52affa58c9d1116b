(** * Specification: programs whose expansion ends *)

From Coq Require Import String List Ascii Bool Arith.
From Verif Require Import Text Res Ast Env Scope State Parser Spec_args Spec_expand Expander.
Import ListNotations.

(** Builtin macros that only evaluate their arguments, once, and make no
    symbols from texts. *)
Definition simple : list bytes := map b
  ["do"; "get"; "raw"; "string"; "number"; "embed"; "markdown"; "yaml"; "json"; "toml"; "glob";
   "reverse"; "date"; "timestamp"; "join"; "concat"; "splat"; "list"; "strip"; "log"; "format";
   "os/env"]%string.

Definition lambda_name (u : bytes) : bytes := b "__lambda" ++ u.

Section Levels.
(** Each name has a level. *)
Variable level : bytes -> nat.

(** A macro that may be applied by name at level [r]. *)
Definition callable (r : nat) (name : bytes) : Prop :=
  In name simple \/ (find_builtin name = None /\ level name < r).

(** An argument that is such a name, or a [%lambda]. *)
Definition function_of (r : nat) (n : node) : Prop :=
  (exists a, n = Sym a /\ starts_with (b "%") (a_val a) = false /\ callable r (a_val a)) \/
  (exists args, is_call (b "lambda") args n /\ forall u, level (lambda_name u) < r).

Definition is_list (n : node) : Prop := exists ns, list_of n = Some ns.
Definition no_call (n : node) : Prop := forall name args, ~ is_call name args n.

(** [below r n]: every macro that [n] uses has a level below [r], and every
    macro that it defines uses only macros of lower level than its own.  So
    nothing is recursive.  Files are included at the level of the name
    [include], and [%symbol] is not used. *)
Inductive below : nat -> node -> Prop :=
| below_plain r n : macro_free n -> below r n
| below_variable r a name : a_val a = b "%" ++ name -> level name < r -> below r (Sym a)
| below_keyword r k v st w : below r v -> below r (Attr k v st w)
| below_list r ns st ew es w :
    no_call (Lst ns st ew es w) -> Forall (below r) ns -> below r (Lst ns st ew es w)
| below_simple r name args n :
    is_call name args n -> In name simple -> Forall (below r) args -> below r n
| below_macro r name args n :
    is_call name args n -> find_builtin name = None -> level name < r -> Forall (below r) args ->
    below r n
| below_value r a body n :
    is_call (b "define") (Sym a :: body) n -> Forall (below r) body -> below r n
| below_define r a params st ew es w body n :
    is_call (b "define") (Lst (Sym a :: params) st ew es w :: body) n ->
    Forall macro_free params -> Forall (below (level (a_val a))) body -> below r n
| below_lambda r l params body n :
    is_call (b "lambda") (params :: body) n -> is_attribute params = false -> macro_free params ->
    (forall u, level (lambda_name u) = l) -> Forall (below l) body -> below r n
| below_applied r name f args n :
    is_call name (f :: args) n -> In name [b "map"; b "filter"; b "apply"] ->
    function_of r f -> Forall (below r) (f :: args) -> below r n
| below_sort r args n :
    is_call (b "sort") args n ->
    Forall (fun x =>
      (is_list x /\ no_call x /\ below r x) \/
      (macro_free x /\ forall a st w, x = Attr (b "key") (Sym a) st w -> callable r (a_val a))) args ->
    below r n
| below_match r value clauses n :
    is_call (b "match") (value :: clauses) n -> below r value ->
    (forall cl ns, In cl clauses -> list_of cl = Some ns -> Forall (below r) ns) -> below r n
| below_ifdef r cond branches n :
    is_call (b "ifdef") (cond :: branches) n -> Forall (below r) branches -> below r n
| below_for r p i l body n :
    is_call (b "for") (p :: i :: l :: body) n ->
    Forall (fun x => is_attribute x = false) [p; i; l] -> macro_free p ->
    (forall items, list_of l = Some items -> Forall (below r) items) -> Forall (below r) body ->
    below r n
| below_namespace r args n :
    is_call (b "namespace") args n -> (forall p k, level k <= level (p ++ k)) ->
    Forall (below r) args -> below r n
| below_include r args n :
    is_call (b "include") args n -> level (b "include") < r -> Forall (below r) args -> below r n.

(** The definitions in force use only macros of lower level. *)
Definition layered (s : state) : Prop := forall name m, get name (x_defs s) = Some m ->
  Forall macro_free (m_params m) /\ Forall (below (level name)) (m_body m).

(** Every file that can be included has a syntax error or uses only macros of
    lower level than [include]. *)
Definition layered_files (E : env) : Prop := forall p text id, e_read E p = Some text ->
  match parse (e_unescape E) id text with
  | Ok tree => Forall (below (level (b "include"))) tree
  | Err _ => True
  | _ => False
  end.
End Levels.

(** Dates in TOML do not start with a percent sign. *)
Fixpoint toml_dates (v : toml) : list bytes :=
  match v with
  | TomlDate s => [s]
  | TomlArray l => flat_map toml_dates l
  | TomlTable l => flat_map (fun '(_, v) => toml_dates v) l
  | _ => []
  end.
Definition plain_dates (E : env) : Prop := forall text l, e_toml E text = Some l ->
  Forall (fun d => starts_with (b "%") d = false) (toml_dates (TomlTable l)).

(** The computation comes to an end: it has a result, an error or a panic,
    and every result satisfies [Q]. *)
Definition halts {A} (m : nat -> res A) (Q : A -> Prop) : Prop :=
  exists r, settles m r /\ match r with Ok x => Q x | Hang => False | _ => True end.
