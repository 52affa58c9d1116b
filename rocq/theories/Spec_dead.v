(** * Specification: definitions that nothing mentions

    Used by C75.  [symbols] is in Spec_expand.v. *)

From Coq Require Import String List Ascii Bool Arith.
From Verif Require Import Text Res Ast Env Scope Parser Spec_builtin Spec_expand Spec_final Spec_lang.
Import ListNotations.

(** [asks k n]: somewhere in [n] is a call of %ifdef about the name [k]. *)
Inductive asks (k : bytes) : node -> Prop :=
| asks_here a cond x rest st ew es w :
    a_val a = b "%ifdef" -> atomic cond = Some x -> a_val x = k ->
    asks k (Lst (Sym a :: cond :: rest) st ew es w)
| asks_inside n ns st ew es w : In n ns -> asks k n -> asks k (Lst ns st ew es w)
| asks_attribute key v st w : asks k v -> asks k (Attr key v st w).

(** [K] is a set of names.  A node without mention of them: it neither uses
    them as variables or macros nor asks whether they are defined.  Nor can
    it do so in a roundabout way: by making symbols from text, by passing
    %ifdef to another macro, or by copying all definitions under new names
    that are not in [K]. *)
Definition roundabout (K : bytes -> Prop) (v : bytes) : Prop :=
  v = b "symbol" \/ v = b "%symbol" \/ v = b "ifdef" \/
  (v = b "namespace" \/ v = b "%namespace") /\ exists prefix k, K k /\ ~ K (prefix ++ k).
Record unmentioned (K : bytes -> Prop) (n : node) : Prop := {
  not_used : forall k, K k -> ~ In k (symbols n) /\ ~ In (b "%" ++ k) (symbols n);
  not_asked : forall k, K k -> ~ asks k n;
  not_indirectly : forall v, roundabout K v -> ~ In v (symbols n)
}.

(** Names that come from elsewhere are not in [K]: those of the built-in
    macros and of lambdas, and the symbols in imported data. *)
Record choosable (K : bytes -> Prop) (E : env) : Prop := {
  not_builtin : forall k, K k -> ~ reserved k;
  not_lambda : forall c st, ~ K (lambda_name E c st);
  not_word : ~ K (b "true") /\ ~ K (b "false");
  not_date : forall text t, e_toml E text = Some t -> Forall (fun v => ~ K v) (toml_dates (TomlTable t))
}.

(** Files that could be included do not mention them either. *)
Definition unmentioned_in_files (K : bytes -> Prop) (E : env) : Prop := forall path text id tree,
  e_read E path = Some text -> parse (e_unescape E) id text = Ok tree -> Forall (unmentioned K) tree.

(** [D] does nothing but define a macro, or a variable for a text or number,
    whose name is in [K]. *)
Inductive defines (K : bytes -> Prop) : node -> Prop :=
| defines_macro d name params st ew es w body st' ew' es' w' :
    a_val d = b "%define" -> K (a_val name) -> single_rests params ->
    defines K (Lst (Sym d :: Lst (Sym name :: params) st ew es w :: body) st' ew' es' w')
| defines_value d name v a st' ew' es' w' :
    a_val d = b "%define" -> K (a_val name) -> atomic v = Some a -> symbol v = None ->
    defines K (Lst [Sym d; Sym name; v] st' ew' es' w').

(** The same outcome but for the definitions of names in [K], and but for the
    text of the program itself. *)
Definition same_defs_but (K : bytes -> Prop) (d d' : scope) : Prop := forall k, ~ K k -> get k d = get k d'.
Inductive same_files : list (bytes * bytes) -> list (bytes * bytes) -> Prop :=
| same_files_main path text text' included : same_files ((path, text) :: included) ((path, text') :: included).
Record same_context (K : bytes -> Prop) (c c' : context) : Prop := {
  same_defs : same_defs_but K (k_defs c) (k_defs c');
  same_log : k_log c = k_log c';
  same_read : same_files (k_files c) (k_files c')
}.
Inductive same_result (K : bytes -> Prop) : result -> result -> Prop :=
| same_ok ns c c' : same_context K c c' -> same_result K (Ok (ns, c)) (Ok (ns, c'))
| same_err e : same_result K (Err e) (Err e)
| same_panic p : same_result K (Panic p) (Panic p)
| same_hang : same_result K Hang Hang.
