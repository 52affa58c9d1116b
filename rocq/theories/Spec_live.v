(** * Specification: files included where nothing is freed

    Used by C43.  [without]: Spec_power.v; [is_call]: Spec_expand.v. *)

From Coq Require Import String List Ascii Bool.
From Verif Require Import Text Ast Env Parser Res Spec_expand Spec_power.
Import ListNotations.

(** Nodes that mention neither [%include] nor [%symbol], by which its name
    could be made up. *)
Definition includes_nothing (n : node) : Prop := without [b "include"; b "symbol"] n.

(** Nodes in which files are included only directly: not inside the body of
    a macro, [%for], [%match] or [%namespace], nor as the argument of any
    other macro, but possibly inside lists and attributes. *)
Inductive includes_directly : node -> Prop :=
| direct_none n : includes_nothing n -> includes_directly n
| direct_symbol a : starts_with (b "%") (a_val a) = false -> includes_directly (Sym a)
| direct_call args n : is_call (b "include") args n -> Forall includes_nothing args -> includes_directly n
| direct_list ns st ew es w : (forall a rest, ns = Sym a :: rest -> starts_with (b "%") (a_val a) = false) ->
    Forall includes_directly ns -> includes_directly (Lst ns st ew es w)
| direct_attribute k v st w : includes_directly v -> includes_directly (Attr k v st w).

(** Programs and files of which this holds. *)
Definition program_directly (E : env) (text : bytes) : Prop :=
  forall tree, parse (e_unescape E) 0 text = Ok tree -> Forall includes_directly tree.
Definition files_directly (E : env) : Prop :=
  forall path text id tree, e_read E path = Some text -> parse (e_unescape E) id text = Ok tree ->
    Forall includes_directly tree.
