(** * Specification: definitions in another place

    Used by C76.  [unmentioned] and [defines] are in Spec_dead.v, [without] is
    in Spec_power.v. *)

From Coq Require Import String List Ascii Bool Arith.
From Verif Require Import Text Res Ast Env Scope Parser Spec_expand Spec_power Spec_dead Spec_lang.
Import ListNotations.

(** Macros that define variables named by data. *)
Definition importing : list bytes := map b ["yaml"; "json"; "toml"; "markdown"]%string.

(** Nodes past which a definition of [k] can be moved: they do not mention it,
    nor could they define it without mentioning it. *)
Definition unrelated (k : bytes) (n : node) : Prop := unmentioned (eq k) n /\ without importing n.
Definition unrelated_files (k : bytes) (E : env) : Prop := forall path text id tree,
  e_read E path = Some text -> parse (e_unescape E) id text = Ok tree -> Forall (unrelated k) tree.
(** The macros known so far, but for [k] itself. *)
Definition unrelated_defs (k : bytes) (d : scope) : Prop := forall j m, j <> k -> get j d = Some m ->
  Forall (unrelated k) (m_params m) /\ Forall (unrelated k) (m_body m).


(** [D] defines [k], and moves past [ns].  What comes before must not be about
    [k], unless it defines it; what comes after is arbitrary. *)
Inductive rearranged (k : bytes) : list node -> list node -> Prop :=
| moved_later pre D ns post :
    Forall (fun n => unrelated k n \/ defines (eq k) n) pre -> defines (eq k) D -> Forall (unrelated k) ns ->
    rearranged k (pre ++ D :: ns ++ post) (pre ++ ns ++ D :: post)
| moved_earlier pre D ns post :
    Forall (fun n => unrelated k n \/ defines (eq k) n) pre -> defines (eq k) D -> Forall (unrelated k) ns ->
    rearranged k (pre ++ ns ++ D :: post) (pre ++ D :: ns ++ post).

(** Definitions of different names. *)
Definition definitions (ds : list node) (names : list bytes) : Prop :=
  Forall2 (fun D k => defines (eq k) D) ds names /\ NoDup names.
