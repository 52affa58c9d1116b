(** * Proof of C43: files included directly are not freed *)

From Coq Require Import String List Ascii Bool Arith Lia.
From Verif Require Import Text Utf8 Res Ast Env Scope State Parser Spec_expand Spec_final Spec_keep Spec_power Spec_live
  Proofs_text Proofs_final Proofs_run Proofs_kept Proofs_order Proofs_power Proofs_meaning Properties_macros Properties_lang Properties_power.
From Verif Require Import Proofs_panic.
From Verif Require Import Args Expander Spec_lang.
Import ListNotations.

Section Live.
Variable E : env.
Hypothesis TEXT : reads_text E.
Hypothesis ORDER : permuting E.
Hypothesis DATES : dates_are_dates E.
Hypothesis FILES : files_directly E.

Notation M := [b "include"; b "symbol"].
Lemma held_M : withheld M.
Proof. held. Qed.

(** Definitions that mention neither. *)
Definition fine (s : state) : Prop := okay_in M (visible s).
(** What expanding a node does to a state. *)
Definition safe (s : state) (r : out) : Prop := forall ns s', r = Ok (ns, s') ->
  fine s' /\ g_freed (x_world s') = g_freed (x_world s).

Lemma none_safe n f s : includes_nothing n -> fine s -> safe s (run E f (TNode n) s).
Proof.
  intros N F ns s' R.
  assert (V : eval E n s (Ok (ns, s'))).
  { pose proof (settles_at (fun f => expand_node E f n s) f) as H. unfold expand_node in H. rewrite R in H.
    apply H; [|discriminate]. intros f1 f2 L. apply run_le, L. }
  assert (P : means E n (visible s) (Ok (ns, visible s'))).
  { apply (node_meaning E TEXT). exists (e_order E), (Ok (ns, s')). rewrite !with_own_order. split; [exact ORDER|]. split; [exact V|reflexivity]. }
  destruct (proj1 (means_same M held_M E E (or_intror TEXT) (or_introl (or_introl eq_refl)) (or_intror DATES) (same_self M E)) _ _ _ P
    (proj1 (without_iff M n) N) F) as [_ W].
  destruct (W _ _ eq_refl) as [_ [K1 [_ K3]]]. split; [exact K1|].
  specialize (K3 (or_introl eq_refl)). cbn in K3.
  apply eval_later in V as [_ _ [l [Fr B]] _ _ _]. rewrite Fr. destruct l as [|i l]; [reflexivity|].
  inversion B as [|? ? X _]. unfold size, srcs in X. rewrite K3 in X. lia.
Qed.

Lemma exs_safe f ns : (forall n s, In n ns -> fine s -> safe s (run E f (TNode n) s)) ->
  forall s, fine s -> safe s (exs (fun n s => run E f (TNode n) s) ns s).
Proof.
  induction ns as [|n ns IH]; intros H s F xs s' R; cbn [exs] in R.
  - injection R as _ <-. auto.
  - destruct (run E f (TNode n) s) as [[ys s1]| | | |] eqn:R1; try discriminate. cbn [bind] in R.
    destruct (H n s (or_introl eq_refl) F _ _ R1) as [F1 G1].
    destruct (exs (fun n s => run E f (TNode n) s) ns s1) as [[zs s2]| | | |] eqn:R2; try discriminate. cbn [bind] in R.
    injection R as _ <-. destruct (IH (fun m t I => H m t (or_intror I)) s1 F1 _ _ R2) as [F2 G2].
    split; [exact F2|]. congruence.
Qed.
Lemma all_safe f ns s : (forall n s, includes_directly n -> fine s -> safe s (run E f (TNode n) s)) ->
  Forall includes_directly ns -> fine s -> safe s (exs (fun n s => run E f (TNode n) s) ns s).
Proof. intros H A. apply exs_safe. intros n t I. apply H. rewrite Forall_forall in A. auto. Qed.

Lemma nothing_received args : Forall includes_nothing args -> Forall includes_nothing (received args).
Proof.
  intros H. destruct H as [|n l N H]; [constructor|]. cbn [received]. constructor; [|exact H].
  destruct (has LF (leading_ws n)); [exact N|]. destruct n; exact N.
Qed.
Lemma fine_registered n s : fine s -> fine (snd (register n s)).
Proof. intros F. exact F. Qed.
Lemma direct_safe f : forall n s, includes_directly n -> fine s -> safe s (run E f (TNode n) s).
Proof.
  induction f as [f IH] using lt_wf_ind. intros n s D F. destruct D as [n N|a A|args n C N|ns st ew es w H A|k v st w A].
  - apply none_safe; assumption.
  - destruct f as [|f]; cbn [run expand_one]; [intros ns s' R; discriminate|]. rewrite A. intros ns s' R. injection R as _ <-. auto.
  - destruct f as [|f]; [intros ? ? R; discriminate|]. destruct C as [a [st [ew [es [w [-> Q]]]]]].
    cbn [run expand_one symbol]. unfold register. rewrite Q. change (starts_with (b "%") (b "%" ++ b "include")) with true. cbv beta iota.
    change (skipn 1 (b "%" ++ b "include")) with (b "include").
    destruct f as [|f]; [intros ? ? R; discriminate|]. cbn [run]. change (invoke E ?x ?y (b "include")) with (do_include E x). unfold do_include.
    match goal with |- safe _ (bind (exs _ _ ?s0) _) => set (s0' := s0) end. intros xs s' R.
    assert (F0 : fine s0') by exact F.
    destruct (exs _ (trim_first args) s0') as [[vs s1]| | | |] eqn:R1; try discriminate. cbn [bind] in R.
    assert (A0 : Forall includes_nothing (trim_first args)) by (change (trim_first args) with (received args); apply nothing_received, N).
    destruct (exs_safe f (trim_first args) ltac:(intros m t I; apply none_safe; rewrite Forall_forall in A0; auto) s0' F0 _ _ R1) as [F1 G1].
    destruct vs as [|v [|]]; try discriminate. destruct (atomic v) as [x|]; [|discriminate].
    destruct (search_file E true (e_includes E) (a_val x)) as [[path text]|] eqn:SF; [|discriminate].
    destruct (add_source path text s1) as [id s2] eqn:AS. injection AS as Hid Hs2.
    destruct (parse (e_unescape E) id text) as [tree| | | |] eqn:PT; try discriminate.
    apply search_read in SF. pose proof (FILES _ _ _ _ SF PT) as D.
    assert (F2 : fine s2 /\ g_freed (x_world s2) = g_freed (x_world s1)) by (subst s2; split; [exact F1|reflexivity]).
    destruct F2 as [F2 G2].
    destruct (exs _ tree s2) as [[ns s3]| | | |] eqn:R3; try discriminate. cbn [bind] in R.
    destruct (all_safe f tree s2 (IH f ltac:(lia)) D F2 _ _ R3) as [F3 G3].
    assert (G : g_freed (x_world s3) = g_freed (x_world s)) by (rewrite G3, G2, G1; reflexivity).
    destruct ns; injection R as _ <-; [split; assumption|].
    unfold touch. destruct (_ =? _); split; assumption || exact F3 || exact G.
  - destruct f as [|f]; [intros ? ? R; discriminate|]. cbn [run expand_one]. destruct ns as [|hd tl].
    { intros ? ? R. injection R as _ <-. auto. }
    assert (P : forall s0 xs s', fine s0 -> (let* '(ns, s) := exs (fun n s => run E f (TNode n) s) (hd :: tl) s0 in Ok ([Lst ns st ew es w], s)) = Ok (xs, s') ->
       fine s' /\ g_freed (x_world s') = g_freed (x_world s0)).
    { intros s0 xs s' F0 R. destruct (exs _ (hd :: tl) s0) as [[ns s1]| | | |] eqn:R1; try discriminate. cbn [bind] in R. injection R as _ <-.
      exact (all_safe f (hd :: tl) s0 (IH f ltac:(lia)) A F0 _ _ R1). }
    intros xs s' R. destruct (symbol hd) as [a|] eqn:Q; [|exact (P _ _ _ F R)].
    assert (hd = Sym a) as -> by (destruct hd; try discriminate Q; injection Q as <-; reflexivity).
    rewrite (H a tl eq_refl) in R. unfold register in R. cbv beta iota in R. exact (P _ _ _ (fine_registered (Sym a) s F) R).
  - destruct f as [|f]; [intros ? ? R; discriminate|]. cbn [run expand_one]. intros xs s' R.
    destruct (run E f (TNode v) s) as [[ns s1]| | | |] eqn:R1; try discriminate. cbn [bind] in R.
    destruct ns; [discriminate|]. injection R as _ <-. exact (IH f ltac:(lia) v s A F _ _ R1).
Qed.

Theorem direct_unfreed f path text ns s : program_directly E text -> expand E f path text = Ok (ns, s) -> g_freed (x_world s) = [].
Proof.
  intros P R. unfold expand in R. destruct (parse (e_unescape E) 0 text) as [tree| | | |] eqn:PT; try discriminate. cbn [bind] in R.
  refine (proj2 (all_safe f tree (initial path text) (direct_safe f) (P _ PT) _ _ _ R)).
  intros k m G. cbn in G. rewrite get_no_defs in G. discriminate.
Qed.
End Live.
