(** * Proofs about sorted sets *)

From Coq Require Import String List Ascii Bool Arith NArith ZArith Lia Permutation Sorted.
From Verif Require Import Text Res Ast Env Numbers Paths Sorting Expander Spec_sort Spec_world Proofs_text Proofs_sort.
Import ListNotations.

Lemma always_less_iff {A} (cmp : A -> A -> comparison) l : always_less cmp l = true <-> all_less cmp l.
Proof.
  unfold always_less, all_less. rewrite forallb_forall. split.
  - intros H x y X Y. specialize (H x X). rewrite forallb_forall in H. apply comparison_eqb_eq, H, Y.
  - intros H x X. rewrite forallb_forall. intros y Y. apply comparison_eqb_eq. auto.
Qed.

Section Collect.
Context {A : Type}.
Variable cmp : A -> A -> comparison.
Notation increasing := (StronglySorted (fun x y => cmp x y = Lt)).

Lemma pre_eq_l l x y z : preorder cmp l -> In x l -> In y l -> In z l -> cmp x y = Eq -> cmp x z = cmp y z.
Proof.
  intros [S T] X Y Z Q. assert (Q' : cmp y x = Eq) by (rewrite (S x y X Y), Q; reflexivity).
  pose proof (S x z X Z) as S1. pose proof (S y z Y Z) as S2.
  pose proof (T y x z Y X Z ltac:(congruence)) as T1. pose proof (T x y z X Y Z ltac:(congruence)) as T2.
  pose proof (T z x y Z X Y) as T3. pose proof (T z y x Z Y X) as T4.
  destruct (cmp x z) eqn:H1, (cmp y z) eqn:H2; cbn in S1, S2; try reflexivity; exfalso;
    (apply T1; [discriminate|reflexivity]) || (apply T2; [discriminate|reflexivity]) ||
    (apply T3; congruence) || (apply T4; congruence).
Qed.
Lemma pre_lt l x y z : preorder cmp l -> In x l -> In y l -> In z l -> cmp x y = Lt -> cmp y z = Lt -> cmp x z = Lt.
Proof.
  intros P X Y Z L1 L2. destruct (cmp x z) eqn:Q; [|reflexivity|].
  - pose proof P as [S _]. rewrite (pre_eq_l l x z y P X Z Y Q) in L1. rewrite (S y z Y Z), L2 in L1. discriminate.
  - destruct P as [_ T]. exfalso. apply (T x y z X Y Z); congruence.
Qed.

Lemma insert_members l x set : preorder cmp l -> In x l -> (forall y, In y set -> In y l) -> increasing set ->
  increasing (bt_insert cmp x set) /\
  forall y, In y (bt_insert cmp x set) <-> In y set \/ (y = x /\ forall z, In z set -> cmp z x <> Eq).
Proof.
  intros P X. pose proof P as [S _]. induction set as [|z set IH]; intros I0 SS; cbn [bt_insert].
  - split; [repeat constructor|]. intros y. cbn. split; [intros [<-|[]]; right; split; [reflexivity|intros ? []]|].
    intros [[]|[-> _]]. auto.
  - assert (Z : In z l) by (apply I0; left; reflexivity). inversion SS as [|? ? S1 S2]; subst.
    rewrite Forall_forall in S2. pose proof (S x z X Z) as SZ.
    destruct (cmp x z) eqn:Q; cbn in SZ.
    + split; [exact SS|]. intros y. split; [auto|]. intros [H|[-> H]]; [exact H|].
      exfalso. apply (H z); [left; reflexivity|exact SZ].
    + assert (G : forall y, In y (z :: set) -> cmp x y = Lt).
      { intros y [<-|Y]; [exact Q|]. apply (pre_lt l x z y P X Z); auto. apply I0. right. exact Y. }
      split.
      * constructor; [exact SS|]. apply Forall_forall. exact G.
      * intros y. cbn [In]. split; [|intuition congruence]. intros [<-|H]; [|auto]. right. split; [reflexivity|].
        intros w W. rewrite (S x w X (I0 w W)), (G w W). discriminate.
    + destruct (IH (fun y Y => I0 y (or_intror Y)) S1) as [H1 H2]. split.
      * constructor; [exact H1|]. apply Forall_forall. intros y Y. apply H2 in Y as [Y|[-> _]]; [auto|exact SZ].
      * intros y. cbn [In]. rewrite H2. split.
        -- intros [H|[H|[-> H]]]; auto. right. split; [reflexivity|]. intros w [<-|W]; [congruence|auto].
        -- intros [[H|H]|[-> H]]; auto. right. right. split; [reflexivity|]. auto.
Qed.

Lemma kind_has l x : preorder cmp l -> In x l -> exists y, first_of_kind cmp l y /\ cmp y x = Eq.
Proof.
  intros P X. assert (K : forall l2 l1, l = l1 ++ l2 -> (forall y, In y l1 -> cmp y x <> Eq) ->
    exists y, first_of_kind cmp l y /\ cmp y x = Eq).
  { induction l2 as [|z l2 IH]; intros l1 Q N.
    - exfalso. rewrite app_nil_r in Q. subst l1. apply (N x X). exact (preorder_refl _ l x P X).
    - destruct (cmp z x) eqn:C.
      + exists z. split; [|exact C]. exists l1, l2. split; [exact Q|]. intros y Y H.
        assert (Iy : In y l) by (rewrite Q; apply in_or_app; auto).
        assert (Iz : In z l) by (rewrite Q; apply in_or_app; right; left; reflexivity).
        apply (N y Y). rewrite (pre_eq_l l y z x P Iy Iz X H). exact C.
      + apply (IH (l1 ++ [z])); [rewrite <- app_assoc; exact Q|]. intros y Y.
        apply in_app_or in Y as [Y|[<-|[]]]; [auto|congruence].
      + apply (IH (l1 ++ [z])); [rewrite <- app_assoc; exact Q|]. intros y Y.
        apply in_app_or in Y as [Y|[<-|[]]]; [auto|congruence]. }
  apply (K l []); [reflexivity|intros ? []].
Qed.
Lemma kind_in l x : first_of_kind cmp l x -> In x l.
Proof. intros [l1 [l2 [-> _]]]. apply in_or_app. right. left. reflexivity. Qed.
Lemma kind_snoc l x y : first_of_kind cmp (l ++ [x]) y <->
  first_of_kind cmp l y \/ (y = x /\ forall z, In z l -> cmp z x <> Eq).
Proof.
  split.
  - intros [l1 [l2 [Q N]]]. destruct l2 as [|w l2'] using rev_ind.
    + apply app_inj_tail in Q as [-> ->]. right. auto.
    + clear IHl2'. rewrite app_comm_cons, app_assoc in Q. apply app_inj_tail in Q as [-> _]. left. exists l1, l2'. auto.
  - intros [[l1 [l2 [-> N]]]|[-> N]].
    + exists l1, (l2 ++ [x]). split; [rewrite <- app_assoc; reflexivity|exact N].
    + exists l, []. auto.
Qed.

Lemma fold_kinds l : preorder cmp l -> forall todo done set, l = done ++ todo -> increasing set ->
  (forall x, In x set <-> first_of_kind cmp done x) ->
  let final := fold_left (fun set x => bt_insert cmp x set) todo set in
  increasing final /\ forall x, In x final <-> first_of_kind cmp l x.
Proof.
  intros P. induction todo as [|x todo IH]; intros done set Q S K; cbn [fold_left].
  - rewrite app_nil_r in Q. subst done. auto.
  - assert (X : In x l) by (rewrite Q; apply in_or_app; right; left; reflexivity).
    assert (PD : preorder cmp done).
    { apply (preorder_sub cmp l); [|exact P]. intros y Y. rewrite Q. apply in_or_app. auto. }
    destruct (insert_members l x set P X) as [S' K']; [|exact S|].
    { intros y Y. apply K, kind_in in Y. rewrite Q. apply in_or_app. auto. }
    apply (IH (done ++ [x])); [rewrite <- app_assoc; exact Q|exact S'|].
    intros y. rewrite K', kind_snoc, K. split; (intros [H|[-> H]]; [auto|right]); (split; [reflexivity|]).
    + intros z Z C. destruct (kind_has done z PD Z) as [w [W C']].
      apply (H w); [apply K, W|]. apply kind_in in W.
      rewrite (pre_eq_l l w z x P); [exact C| | |exact X|exact C']; rewrite Q; apply in_or_app; auto.
    + intros z Z. apply H. apply K in Z. exact (kind_in _ _ Z).
Qed.

Lemma sorted_set_unique l l1 : preorder cmp l -> forall l2, (forall x, In x l1 -> In x l) -> increasing l1 -> increasing l2 ->
  (forall x, In x l1 <-> In x l2) -> l1 = l2.
Proof.
  intros P. pose proof P as [S _]. induction l1 as [|x l1 IH]; intros [|y l2] I0 S1 S2 K.
  - reflexivity.
  - destruct (proj2 (K y) (or_introl eq_refl)).
  - destruct (proj1 (K x) (or_introl eq_refl)).
  - inversion S1 as [|? ? A1 A2]; inversion S2 as [|? ? B1 B2]; subst. rewrite Forall_forall in A2, B2.
    assert (X : In x l) by (apply I0; left; reflexivity).
    assert (Y : In y l) by (apply I0, K; left; reflexivity).
    assert (x = y) as ->.
    { destruct (proj1 (K x) (or_introl eq_refl)) as [H|H]; [auto|].
      destruct (proj2 (K y) (or_introl eq_refl)) as [H'|H']; [auto|].
      exfalso. pose proof (S x y X Y) as H1. rewrite (A2 y H'), (B2 x H) in H1. discriminate. }
    f_equal. apply IH; auto.
    + intros z Z. apply I0. right. exact Z.
    + intros z. pose proof (preorder_refl _ l y P Y) as R. split; intros Z.
      * destruct (proj1 (K z) (or_intror Z)) as [<-|H]; [|exact H]. specialize (A2 _ Z). congruence.
      * destruct (proj2 (K z) (or_intror Z)) as [<-|H]; [|exact H]. specialize (B2 _ Z). congruence.
Qed.

Lemma fold_less l : all_less cmp l -> forall todo done, l = done ++ todo ->
  fold_left (fun set x => bt_insert cmp x set) todo (rev done) = rev l.
Proof.
  intros L. induction todo as [|x todo IH]; intros done Q; cbn [fold_left].
  - rewrite app_nil_r in Q. subst. reflexivity.
  - assert (B : bt_insert cmp x (rev done) = rev (done ++ [x])).
    { rewrite rev_app_distr. cbn [rev app]. destruct (rev done) as [|y r] eqn:R; [reflexivity|]. cbn [bt_insert].
      rewrite (L x y); [reflexivity|rewrite Q; apply in_or_app; right; left; reflexivity|].
      rewrite Q. apply in_or_app. left. apply in_rev. rewrite R. left. reflexivity. }
    rewrite B. apply IH. rewrite <- app_assoc. exact Q.
Qed.

Lemma collect_iff E l out : collected E cmp l out <-> bt_collect E cmp l = out.
Proof.
  assert (PRE : preorder cmp l -> forall o, fold_left (fun set x => bt_insert cmp x set) l [] = o <->
    increasing o /\ (forall x, In x o <-> first_of_kind cmp l x)).
  { intros P o. destruct (fold_kinds l P l [] [] eq_refl ltac:(constructor)) as [F1 F2].
    { intros x. split; [intros []|]. intros [[|? ?] [? [H _]]]; discriminate. }
    split; [intros <-; auto|]. intros [O1 O2]. apply (sorted_set_unique l _ P); auto.
    - intros x I0. apply F2, kind_in in I0. exact I0.
    - intros x. rewrite F2, O2. reflexivity. }
  unfold bt_collect. destruct (is_order cmp l) eqn:O.
  - cbn [orb]. apply is_order_iff in O. rewrite (PRE O). split.
    + intros [o P S K|L|m ks l' N _ _ _]; [auto| |contradiction].
      apply (PRE O). exact (fold_less l L l [] eq_refl).
    + intros [S K]. constructor; auto.
  - assert (N : ~ preorder cmp l) by (intros P; apply is_order_iff in P; congruence). cbn [orb].
    destruct (always_less cmp l) eqn:L.
    + apply always_less_iff in L. pose proof (fold_less l L l [] eq_refl) as F. cbn [rev] in F. rewrite F. split.
      * intros [o P S K|_|m ks l' _ N' _ _]; [contradiction|reflexivity|contradiction].
      * intros <-. apply collected_reverse, L.
    + assert (N' : ~ all_less cmp l) by (intros P; apply always_less_iff in P; congruence).
      fold (Spec_sort.answers cmp l). split.
      * intros [o P S K|P|m ks l' _ _ U P]; [contradiction|contradiction|]. rewrite U.
        f_equal. exact (picked_fun _ _ _ _ (arrange_picked _ _) P).
      * destruct (e_unlisted E (Spec_sort.answers cmp l)) as [m ks] eqn:U. intros <-.
        eapply collected_somehow; [exact N|exact N'|exact U|apply arrange_picked].
Qed.
Lemma arrange_incl ks (l : list A) x : In x (arrange ks l) -> In x l.
Proof. apply (Permutation_in (l := arrange ks l)). exact (picked_perm _ _ _ (arrange_picked ks l)). Qed.
End Collect.

Lemma collected_ext {A} E (cmp cmp' : A -> A -> comparison) l out :
  (forall x y, cmp x y = cmp' x y) -> collected E cmp l out -> collected E cmp' l out.
Proof.
  intros Q. assert (P : preorder cmp l <-> preorder cmp' l).
  { unfold preorder. split; intros [S T]; (split; intros x y; [|intros z]; [rewrite <- ?Q; apply S|rewrite <- ?Q; apply T]) ||
      (split; intros x y; [|intros z]; rewrite ?Q; [apply S|apply T]). }
  assert (L : all_less cmp l <-> all_less cmp' l).
  { unfold all_less. split; intros H x y X Y; specialize (H x y X Y); rewrite ?Q in *; congruence. }
  assert (M : Spec_sort.answers cmp l = Spec_sort.answers cmp' l).
  { unfold Spec_sort.answers. apply map_ext. intros x. apply map_ext. intros y. apply Q. }
  assert (K : forall x, first_of_kind cmp l x <-> first_of_kind cmp' l x).
  { intros x. unfold first_of_kind. split; intros [l1 [l2 [H1 H2]]]; exists l1, l2; (split; [exact H1|]); intros y Y;
      specialize (H2 y Y); rewrite ?Q in *; congruence. }
  intros [o H S F|H|m ks l' H1 H2 U H3].
  - apply collected_sorted; [apply P, H| |intros x; rewrite <- K; apply F].
    clear - Q S. induction S as [|x o S IH B]; constructor; [exact IH|]. rewrite Forall_forall in *. intros y Y.
    rewrite <- Q. auto.
  - apply collected_reverse, L, H.
  - rewrite M in U. eapply collected_somehow; [rewrite <- P; exact H1|rewrite <- L; exact H2|exact U|exact H3].
Qed.

(** ** Comparisons of entries *)

Lemma found_cmp_by k : compares_by k (found_cmp k).
Proof.
  intros x y. assert (T : forall time, time_key k time ->
    compared k x y (time_cmp (time (f_meta x)) (time (f_meta y)) (f_path x) (f_path y))).
  { intros time K. unfold time_cmp. destruct (time (f_meta x)) as [tx|] eqn:X; [|eapply compared_no_time; eauto].
    destruct (time (f_meta y)) as [ty|] eqn:Y; [|eapply compared_no_time; eauto].
    destruct (Z.eqb_spec tx ty) as [->|N]; [eapply compared_same_time; eauto|].
    destruct (Z.compare_spec ty tx); [congruence|eapply compared_newer; eauto; lia|eapply compared_older; eauto; lia]. }
  destruct k; cbn [found_cmp].
  - apply (T modified). constructor.
  - apply (T created). constructor.
  - constructor.
  - destruct (is_dir (f_meta x) && is_file (f_meta y)) eqn:D.
    { apply andb_true_iff in D as [D1 D2]. apply compared_dir; assumption. }
    assert (ND : ~ (is_dir (f_meta x) = true /\ is_file (f_meta y) = true)) by (intros [D1 D2]; rewrite D1, D2 in D; discriminate).
    destruct (is_file (f_meta x) && is_dir (f_meta y)) eqn:F.
    { apply andb_true_iff in F as [F1 F2]. apply compared_file; assumption. }
    assert (NF : ~ (is_file (f_meta x) = true /\ is_dir (f_meta y) = true)) by (intros [F1 F2]; rewrite F1, F2 in F; discriminate).
    destruct (extension (f_path x)) as [e|] eqn:X, (extension (f_path y)) as [e'|] eqn:Y.
    + destruct (beq e e') eqn:B.
      * apply beq_eq in B. apply compared_same_extension; auto. congruence.
      * apply beq_neq in B. apply compared_extensions; auto.
    + eapply compared_no_extension; eauto.
    + eapply compared_extension; eauto.
    + apply compared_same_extension; auto. congruence.
  - constructor.
Qed.
Lemma compared_fun k x y o1 : compared k x y o1 -> forall o2, compared k x y o2 -> o1 = o2.
Proof.
  intros H1 o2 H2.
  assert (TK : forall t t', time_key k t -> time_key k t' -> t = t') by (intros t t' [] B; inversion B; reflexivity).
  destruct H1; inversion H2; subst;
    repeat match goal with
    | A : time_key _ ?t, B : time_key _ ?t' |- _ => tryif constr_eq t t' then clear B else (rewrite <- (TK t t' A B) in *; clear B)
    end;
    try reflexivity; try (exfalso; congruence);
    try (match goal with K : time_key _ _ |- _ => inversion K end; fail);
    try (exfalso; intuition congruence);
    try (exfalso; match goal with A : ?f ?m = Some ?t1, B : ?f ?m = Some ?t2 |- _ => assert (t1 = t2) by congruence; subst; tauto end).
  all: try (exfalso; repeat match goal with A : ?f ?m = Some ?t1, B : ?f ?m = Some ?t2 |- _ =>
        assert (t1 = t2) by congruence; subst; clear B end; lia).
  all: try congruence.
Qed.
Lemma compares_unique k cmp : compares_by k cmp -> forall x y, cmp x y = found_cmp k x y.
Proof. intros C x y. exact (compared_fun k x y _ (C x y) _ (found_cmp_by k x y)). Qed.
