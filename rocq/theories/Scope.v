(** * Scopes: finite maps from names to macros

    A thin interface over std++'s [gmap], so that no other file needs its
    notations.  Two scopes with the same entries are equal ([scope_ext]). *)

From stdpp Require Import gmap strings.
From Verif Require Import Text Res Ast.

(** [expander.rs:62-68] [struct Macro].  Its field [name] is never read. *)
Record macro := Macro { m_params : list node; m_body : list node }.

(** [expander.rs:83] [Scope]: a [HashMap<String, Rc<Macro>>]; the reference
    counted macros are immutable, so sharing them is copying them. *)
Definition scope : Type := gmap bytes macro.

Definition no_defs : scope := ∅.

(** [expander.rs:183-185] [get_variable]. *)
Definition get (k : bytes) (s : scope) : option macro := s !! k.
(** [expander.rs:172-175] [insert_variable]. *)
Definition put (k : bytes) (m : macro) (s : scope) : scope := <[k := m]> s.
(** [expander.rs:178-181] [has_variable]. *)
Definition defined (k : bytes) (s : scope) : bool :=
  match get k s with Some _ => true | None => false end.
(** [HashMap::keys] in some fixed order. *)
Definition scope_names (s : scope) : list bytes := (map_to_list s).*1.

(** Variables are macros without parameters. *)
Definition variable (body : list node) : macro := Macro [] body.

Lemma get_put_same k m s : get k (put k m s) = Some m.
Proof. apply lookup_insert. Qed.

Lemma get_put_other k k' m s : k <> k' -> get k (put k' m s) = get k s.
Proof. intros N. apply lookup_insert_ne. congruence. Qed.

Lemma scope_ext s s' : (forall k, get k s = get k s') -> s = s'.
Proof. apply map_eq. Qed.

Lemma scope_names_iff s k : In k (scope_names s) <-> get k s <> None.
Proof.
  unfold scope_names, get. rewrite <- elem_of_list_In, elem_of_list_fmap. split.
  - intros [[k' m] [-> I]]. cbn. apply elem_of_map_to_list in I. intros N. pose proof (eq_trans (eq_sym I) N). discriminate.
  - destruct (s !! k) as [m|] eqn:L; [|congruence]. intros _.
    exists (k, m). split; [reflexivity|]. apply elem_of_map_to_list. exact L.
Qed.

Lemma scope_names_nodup s : List.NoDup (scope_names s).
Proof. apply NoDup_ListNoDup, NoDup_fst_map_to_list. Qed.

Lemma get_no_defs k : get k no_defs = None.
Proof. apply lookup_empty. Qed.
