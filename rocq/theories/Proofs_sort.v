(** * Proofs about [%sort] *)

From Coq Require Import String List Ascii Bool Arith NArith ZArith Lia Permutation Sorted.
From Verif Require Import Text Res Ast Args Env Scope State Bind Data Sorting Expander Numbers
  Spec_args Spec_expand Spec_builtin Spec_control Spec_sort Proofs_text Proofs_ast Proofs_run
  Proofs_eval Proofs_args Proofs_builtin Proofs_simple Proofs_control.
Import ListNotations.

(** ** Sorting *)

Lemma not_gt_iff o : not_gt o = true <-> o <> Gt.
Proof. destruct o; cbn; split; congruence. Qed.

Lemma comparison_eqb_eq x y : comparison_eqb x y = true <-> x = y.
Proof. destruct x, y; cbn; split; congruence. Qed.

Lemma is_order_iff {A} (cmp : A -> A -> comparison) l : is_order cmp l = true <-> preorder cmp l.
Proof.
  unfold is_order, preorder. rewrite forallb_forall. split.
  - intros H. split.
    + intros x y X Y. specialize (H x X). rewrite forallb_forall in H. specialize (H y Y).
      apply andb_true_iff in H as [H _]. apply comparison_eqb_eq, H.
    + intros x y z X Y Z H1 H2. specialize (H x X). rewrite forallb_forall in H. specialize (H y Y).
      apply andb_true_iff in H as [_ H]. rewrite forallb_forall in H. specialize (H z Z).
      apply not_gt_iff in H1, H2. rewrite H1, H2 in H. apply not_gt_iff, H.
  - intros [S T] x X. rewrite forallb_forall. intros y Y. rewrite (S x y X Y).
    apply andb_true_iff. split; [apply comparison_eqb_eq; reflexivity|].
    rewrite forallb_forall. intros z Z. destruct (not_gt (cmp x y)) eqn:H1; [|reflexivity].
    destruct (not_gt (cmp y z)) eqn:H2; [|reflexivity]. cbn.
    apply not_gt_iff. apply not_gt_iff in H1, H2. exact (T x y z X Y Z H1 H2).
Qed.

Section Sort.
Context {A : Type}.
Variable cmp : A -> A -> comparison.

Lemma preorder_sub l l' : (forall x, In x l' -> In x l) -> preorder cmp l -> preorder cmp l'.
Proof. intros H [S T]. split; eauto 10. Qed.

Lemma preorder_refl l x : preorder cmp l -> In x l -> cmp x x = Eq.
Proof. intros [S _] X. specialize (S x x X X). destruct (cmp x x); cbn in S; congruence. Qed.

Lemma insert_perm x l : Permutation (sort_insert cmp x l) (x :: l).
Proof.
  induction l as [|y l IH]; cbn; [reflexivity|]. destruct (cmp x y); try reflexivity.
  rewrite IH. apply perm_swap.
Qed.

Lemma sort_perm l : Permutation (insertion_sort cmp l) l.
Proof.
  induction l as [|x l IH]; cbn; [constructor|]. rewrite insert_perm. constructor. exact IH.
Qed.

Lemma insert_sorted x l : preorder cmp (x :: l) ->
  StronglySorted (fun x y => cmp x y <> Gt) l ->
  StronglySorted (fun x y => cmp x y <> Gt) (sort_insert cmp x l).
Proof.
  induction l as [|y l IH]; intros P S; cbn [sort_insert].
  - repeat constructor.
  - inversion S as [|? ? S1 S2]; subst.
    destruct P as [Ps Pt].
    assert (C : cmp x y <> Gt -> StronglySorted (fun x y => cmp x y <> Gt) (x :: y :: l)).
    { intros H. constructor; [exact S|]. constructor; [exact H|].
      rewrite Forall_forall in *. intros z Z. apply (Pt x y z); cbn; auto. }
    destruct (cmp x y) eqn:H; try (apply C; discriminate).
    constructor.
    + apply IH; [|exact S1]. apply (preorder_sub (x :: y :: l)); [cbn; tauto|split; assumption].
    + rewrite Forall_forall in *. intros z Z.
      apply (Permutation_in _ (insert_perm x l)) in Z. destruct Z as [<-|Z]; [|apply S2, Z].
      rewrite (Ps x y) by (cbn; auto). rewrite H. discriminate.
Qed.

Lemma sort_sorted l : preorder cmp l ->
  StronglySorted (fun x y => cmp x y <> Gt) (insertion_sort cmp l).
Proof.
  induction l as [|x l IH]; intros P; cbn; [constructor|].
  apply insert_sorted.
  - apply (preorder_sub (x :: l)); [|exact P]. intros y [<-|Y]; [left; reflexivity|right].
    apply (Permutation_in _ (sort_perm l)), Y.
  - apply IH. apply (preorder_sub (x :: l)); [cbn; tauto|exact P].
Qed.

Lemma insert_stable z x l : preorder cmp (z :: x :: l) ->
  filter (equivalent cmp z) (sort_insert cmp x l) = filter (equivalent cmp z) (x :: l).
Proof.
  intros P. induction l as [|y l IH]; cbn [sort_insert]; [reflexivity|].
  destruct (cmp x y) eqn:H; try reflexivity.
  cbn [filter]. rewrite IH by (apply (preorder_sub (z :: x :: y :: l)); [cbn; tauto|exact P]).
  cbn [filter]. unfold equivalent.
  destruct (cmp z x) eqn:ZX; destruct (cmp z y) eqn:ZY; try reflexivity.
  exfalso. destruct P as [Ps Pt]. apply (Pt x z y); cbn; auto; [|congruence].
  rewrite (Ps z x) by (cbn; auto). rewrite ZX. discriminate.
Qed.

Lemma sort_stable l : preorder cmp l -> forall z, In z l ->
  filter (equivalent cmp z) (insertion_sort cmp l) = filter (equivalent cmp z) l.
Proof.
  intros P. assert (G : forall m, (forall x, In x m -> In x l) -> forall z, In z l ->
    filter (equivalent cmp z) (insertion_sort cmp m) = filter (equivalent cmp z) m).
  { induction m as [|x m IH]; intros S z Z; [reflexivity|]. cbn [insertion_sort fold_right].
    change (fold_right (sort_insert cmp) [] m) with (insertion_sort cmp m).
    rewrite insert_stable.
    - cbn [filter]. rewrite IH; [reflexivity| |exact Z]. intros y Y. apply S. right. exact Y.
    - apply (preorder_sub l); [|exact P]. intros y [<-|[<-|Y]]; [exact Z|apply S; left; reflexivity|].
      apply S. right. apply (Permutation_in _ (sort_perm m)), Y. }
  intros z Z. apply G; [tauto|exact Z].
Qed.

Lemma sort_correct l : preorder cmp l -> stable_sorted cmp l (insertion_sort cmp l).
Proof.
  intros P. split; [apply sort_perm|]. split; [apply sort_sorted, P|apply sort_stable, P].
Qed.

(** There is only one stable sorted arrangement. *)
Lemma sorted_unique_gen l : preorder cmp l -> forall l1 l2,
  (forall x, In x l1 -> In x l) -> Permutation l1 l2 ->
  StronglySorted (fun x y => cmp x y <> Gt) l1 -> StronglySorted (fun x y => cmp x y <> Gt) l2 ->
  (forall x, In x l -> filter (equivalent cmp x) l1 = filter (equivalent cmp x) l2) -> l1 = l2.
Proof.
  intros P. induction l1 as [|x l1 IH]; intros l2 Sub Pm S1 S2 F.
  - apply Permutation_nil in Pm. congruence.
  - destruct l2 as [|y l2]; [apply Permutation_sym, Permutation_nil in Pm; discriminate|].
    assert (X : In x l) by (apply Sub; left; reflexivity).
    assert (Y : In y l).
    { apply Sub. apply (Permutation_in _ (Permutation_sym Pm)). left. reflexivity. }
    assert (XY : cmp x y = Eq).
    { inversion S1 as [|? ? _ M1]; inversion S2 as [|? ? _ M2]; subst.
      rewrite Forall_forall in M1, M2.
      assert (C1 : cmp x y <> Gt).
      { assert (I : In y (x :: l1)) by (apply (Permutation_in _ (Permutation_sym Pm)); left; reflexivity).
        destruct I as [<-|I]; [|apply M1, I]. rewrite (preorder_refl l x P X). discriminate. }
      assert (C2 : cmp y x <> Gt).
      { assert (I : In x (y :: l2)) by (apply (Permutation_in _ Pm); left; reflexivity).
        destruct I as [<-|I]; [|apply M2, I]. rewrite (preorder_refl l y P Y). discriminate. }
      destruct P as [Ps _]. rewrite (Ps x y X Y) in C2. destruct (cmp x y); cbn in C2; congruence. }
    assert (E1 : x = y).
    { specialize (F x X). cbn [filter] in F.
      assert (E1 : equivalent cmp x x = true) by (unfold equivalent; rewrite (preorder_refl l x P X); reflexivity).
      assert (E2 : equivalent cmp x y = true) by (unfold equivalent; rewrite XY; reflexivity).
      rewrite E1, E2 in F. congruence. }
    subst y. f_equal. apply IH.
    + intros z Z. apply Sub. right. exact Z.
    + apply Permutation_cons_inv in Pm. exact Pm.
    + inversion S1; assumption.
    + inversion S2; assumption.
    + intros z Z. specialize (F z Z). cbn [filter] in F. destruct (equivalent cmp z x); congruence.
Qed.

Lemma sorted_unique l l1 l2 : preorder cmp l ->
  stable_sorted cmp l l1 -> stable_sorted cmp l l2 -> l1 = l2.
Proof.
  intros P [P1 [S1 F1]] [P2 [S2 F2]]. apply (sorted_unique_gen l P); auto.
  - intros x X. apply (Permutation_in _ P1), X.
  - rewrite P1, P2. reflexivity.
  - intros x X. rewrite F1, F2 by exact X. reflexivity.
Qed.

Lemma arrange_picked ks : forall l : list A, picked ks l (arrange ks l).
Proof.
  induction ks as [|k ks IH]; intros l; cbn [arrange]; [constructor|].
  cbv zeta. destruct l as [|y l]; [rewrite skipn_nil; constructor|].
  set (i := k mod length (y :: l)). assert (L : i < length (y :: l)) by (apply Nat.mod_upper_bound; discriminate).
  destruct (skipn i (y :: l)) as [|x after] eqn:S.
  { apply (f_equal (@length _)) in S. rewrite skipn_length in S. cbn [length] in *. lia. }
  pose proof (firstn_skipn i (y :: l)) as F. rewrite S in F.
  assert (LF : length (firstn i (y :: l)) = i) by (rewrite firstn_length; lia).
  rewrite <- F at 1. constructor; [|apply IH]. rewrite F, LF. reflexivity.
Qed.
Lemma picked_fun ks (l l1 l2 : list A) : picked ks l l1 -> picked ks l l2 -> l1 = l2.
Proof.
  intros H. revert l2. induction H as [l|ks|k ks before x after l' L H IH]; intros l2 P.
  - inversion P; reflexivity.
  - inversion P; subst; try reflexivity. destruct before; discriminate.
  - remember (k :: ks) as kk eqn:QK. remember (before ++ x :: after) as m eqn:Q.
    destruct P as [m|kk|k2 ks2 before2 x2 after2 l2' L2 P2]; [discriminate| |].
    + exfalso. destruct before; discriminate.
    + injection QK as -> ->. rewrite <- L in L2.
      assert (before2 = before /\ x2 :: after2 = x :: after) as [-> R].
      { clear -Q L2. revert before2 Q L2. induction before as [|z before IH]; intros [|z2 before2] Q L2; cbn in *;
          try discriminate; [auto|]. injection Q as -> Q. injection L2 as L2. destruct (IH _ Q L2) as [-> ->]. auto. }
      injection R as -> ->. f_equal. apply IH, P2.
Qed.
Lemma picked_perm ks (l l' : list A) : picked ks l l' -> Permutation l' l.
Proof.
  intros H. induction H as [l|ks|k ks before x after l' L H IH]; [reflexivity..|].
  rewrite IH. apply Permutation_middle.
Qed.

Lemma sort_by_iff E l q : sorts E cmp l q <-> sort_by E cmp l = q.
Proof.
  unfold sort_by. destruct (is_order cmp l) eqn:O.
  - apply is_order_iff in O. split.
    + intros [l' P S|ks l' N _ _|N _]; [|contradiction..]. f_equal. eapply sorted_unique; [exact O| |exact S]. apply sort_correct, O.
    + intros <-. constructor; [exact O|]. apply sort_correct, O.
  - assert (N : ~ preorder cmp l) by (intros P; apply is_order_iff in P; congruence).
    fold (answers cmp l). split.
    + intros [l' P S|ks l' _ U P|_ U]; [contradiction| |]; rewrite U; [|reflexivity].
      f_equal. exact (picked_fun _ _ _ _ (arrange_picked _ _) P).
    + destruct (e_unsorted E (answers cmp l)) as [ks|] eqn:U; intros <-.
      * eapply sorts_somehow; [exact N|exact U|apply arrange_picked].
      * apply sorts_panics; assumption.
Qed.
Lemma sorts_perm E l l' : sorts E cmp l (Ok l') -> Permutation l' l.
Proof.
  intros H. inversion H as [? P [S _]|? ? _ _ P|]; subst; [exact S|]. exact (picked_perm _ _ _ P).
Qed.
Lemma sorts_preorder E l q : preorder cmp l ->
  (sorts E cmp l q <-> exists l', q = Ok l' /\ stable_sorted cmp l l').
Proof.
  intros P. split.
  - intros [l' _ S|ks l' N _ _|N _]; [eauto|contradiction..].
  - intros [l' [-> S]]. constructor; assumption.
Qed.
Lemma sorts_cases E l q : sorts E cmp l q ->
  q = Panic PSortOrder /\ ~ preorder cmp l \/ exists l', q = Ok l' /\ Permutation l' l.
Proof.
  intros H. pose proof H as H0. destruct H as [l' P S|ks l' N U P|N _]; [right|right|left; auto];
    exists l'; split; auto; eapply sorts_perm; eassumption.
Qed.
Lemma sort_by_perm E l l' : sort_by E cmp l = Ok l' -> Permutation l' l.
Proof. intros H. apply sort_by_iff in H. exact (sorts_perm _ _ _ H). Qed.
End Sort.

(** ** Arrangement *)

Lemma arranged_with xs ws : length xs = length ws -> arranged xs ws (with_ws_of xs ws).
Proof.
  unfold arranged, with_ws_of. revert ws. induction xs as [|x xs IH]; intros [|w ws] L; try discriminate; [auto|].
  cbn. destruct (IH ws ltac:(cbn in L; lia)) as [I1 I2]. unfold with_ws_of in *.
  rewrite I1, I2, set_ws_set, leading_set. auto.
Qed.

Lemma arranged_fun xs ws n1 n2 : arranged xs ws n1 -> arranged xs ws n2 -> n1 = n2.
Proof.
  intros [A B] [C D]. rewrite <- C in A. rewrite <- D in B. clear -A B.
  revert n2 A B. induction n1 as [|x xs IH]; intros [|y ys] A B; try discriminate; [reflexivity|].
  cbn in A, B. inversion A; inversion B. f_equal; [|apply IH; assumption].
  rewrite <- (set_ws_same x), <- (set_ws_same y), H2.
  rewrite <- (set_ws_set _ [] x), <- (set_ws_set _ [] y), H0. reflexivity.
Qed.

(** ** Keys *)

Lemma bytes_cmp_sym x : forall y, bytes_cmp y x = CompOpp (bytes_cmp x y).
Proof.
  induction x as [|c x IH]; intros [|d y]; try reflexivity. cbn.
  rewrite (N.compare_antisym (N_of_ascii c)).
  destruct (N.compare (N_of_ascii c) (N_of_ascii d)); cbn; auto.
Qed.

Lemma bytes_cmp_eq x : forall y, bytes_cmp x y = Eq <-> x = y.
Proof.
  induction x as [|c x IH]; intros [|d y]; cbn; try (split; congruence).
  destruct (N.compare_spec (N_of_ascii c) (N_of_ascii d)) as [H|H|H].
  - rewrite IH. apply (f_equal ascii_of_N) in H. rewrite !ascii_N_embedding in H. subst. split; congruence.
  - split; [discriminate|]. intros Q. inversion Q; subst. lia.
  - split; [discriminate|]. intros Q. inversion Q; subst. lia.
Qed.

Lemma bytes_cmp_trans x : forall y z,
  bytes_cmp x y <> Gt -> bytes_cmp y z <> Gt -> bytes_cmp x z <> Gt.
Proof.
  induction x as [|c x IH]; intros [|d y] [|e z]; cbn; try congruence.
  destruct (N.compare_spec (N_of_ascii c) (N_of_ascii d)) as [H1|H1|H1];
  destruct (N.compare_spec (N_of_ascii d) (N_of_ascii e)) as [H2|H2|H2];
  destruct (N.compare_spec (N_of_ascii c) (N_of_ascii e)) as [H3|H3|H3];
    try congruence; try lia. apply IH.
Qed.

Lemma bytes_preorder l : preorder bytes_cmp l.
Proof. split; [intros; apply bytes_cmp_sym|]. intros x y z _ _ _. apply bytes_cmp_trans. Qed.

Lemma preorder_ext {A} (cmp cmp' : A -> A -> comparison) l :
  (forall x y, In x l -> In y l -> cmp x y = cmp' x y) -> preorder cmp l -> preorder cmp' l.
Proof.
  intros H [S T]. split.
  - intros x y X Y. rewrite <- !H by assumption. auto.
  - intros x y z X Y Z. rewrite <- !H by assumption. apply T; assumption.
Qed.

Lemma preorder_map {A B} (f : A -> B) cmp l :
  preorder cmp (map f l) -> preorder (fun x y => cmp (f x) (f y)) l.
Proof.
  intros [S T]. split.
  - intros x y X Y. apply S; apply in_map; assumption.
  - intros x y z X Y Z. apply T; apply in_map; assumption.
Qed.

Lemma preorder_flip {A} (cmp : A -> A -> comparison) l :
  preorder cmp l -> preorder (fun x y => cmp y x) l.
Proof.
  intros [S T]. split.
  - intros x y X Y. apply S; assumption.
  - intros x y z X Y Z H1 H2. exact (T z y x Z Y X H2 H1).
Qed.

Lemma Z_preorder {A} (f : A -> Z) l : preorder (fun x y => Z.compare (f x) (f y)) l.
Proof.
  split.
  - intros x y _ _. apply Z.compare_antisym.
  - intros x y z _ _ _ H1 H2. change (Z.le (f x) (f z)). change (Z.le (f x) (f y)) in H1.
    change (Z.le (f y) (f z)) in H2. lia.
Qed.

Section Keys.
Variable E : env.

(** Keys that are all integers are compared as such. *)
Lemma int_keys l : Forall (fun k => parse_i64 k <> None) l -> preorder (key_cmp E) l.
Proof.
  rewrite Forall_forall. intros F.
  apply (preorder_ext (fun x y => Z.compare (match parse_i64 x with Some z => z | None => 0%Z end)
     (match parse_i64 y with Some z => z | None => 0%Z end))).
  - intros x y X Y. apply F in X, Y. unfold key_cmp.
    destruct (parse_i64 x); [|congruence]. destruct (parse_i64 y); [|congruence]. reflexivity.
  - apply Z_preorder.
Qed.

(** Keys none of which is a number are compared byte by byte. *)
Lemma text_keys l : Forall (fun k => parse_i64 k = None /\ (e_float E k = None \/ e_float E k = Some None)) l ->
  preorder (key_cmp E) l.
Proof.
  rewrite Forall_forall. intros F. apply (preorder_ext bytes_cmp).
  - intros x y X Y. destruct (F x X) as [P Q]. unfold key_cmp. rewrite P.
    destruct Q as [-> | ->]; reflexivity.
  - apply bytes_preorder.
Qed.

(** Keys that are floating point numbers but no integers. *)
Lemma float_keys l : Forall (fun k => parse_i64 k = None /\ exists z, e_float E k = Some (Some z)) l ->
  preorder (key_cmp E) l.
Proof.
  rewrite Forall_forall. intros F.
  apply (preorder_ext (fun x y => Z.compare (match e_float E x with Some (Some z) => z | _ => 0%Z end)
     (match e_float E y with Some (Some z) => z | _ => 0%Z end))).
  - intros x y X Y. destruct (F x X) as [P [z Q]]. destruct (F y Y) as [_ [z' Q']].
    unfold key_cmp. rewrite P, Q, Q'. reflexivity.
  - apply Z_preorder.
Qed.

(** Integers and other floating point numbers together, if the conversion to
    floating point keeps the order of these integers. *)
Lemma number_keys l :
  Forall (fun k => exists z, e_float E k = Some (Some z)) l ->
  (forall x y n m f g, In x l -> In y l -> parse_i64 x = Some n -> parse_i64 y = Some m ->
     e_float E x = Some (Some f) -> e_float E y = Some (Some g) -> Z.compare n m = Z.compare f g) ->
  preorder (key_cmp E) l.
Proof.
  rewrite Forall_forall. intros F M.
  apply (preorder_ext (fun x y => Z.compare (match e_float E x with Some (Some z) => z | _ => 0%Z end)
     (match e_float E y with Some (Some z) => z | _ => 0%Z end))).
  - intros x y X Y. destruct (F x X) as [z Q]. destruct (F y Y) as [z' Q'].
    unfold key_cmp. rewrite Q, Q'.
    destruct (parse_i64 x) as [n|] eqn:Px; [|reflexivity]. destruct (parse_i64 y) as [m|] eqn:Py; [|reflexivity].
    symmetry. exact (M x y n m z z' X Y Px Py Q Q').
  - apply Z_preorder.
Qed.
End Keys.

(** ** The macro *)

Lemma accepted_sort vs :
  accepted rules_sort vs <->
  exists v, positionals vs = [v] /\
    options vs (fun k v => (k = b "order" /\ text_among [b "ascending"; b "descending"] v) \/
                           (k = b "key" /\ exists a, v = Sym a)).
Proof.
  rewrite (accepted_alt _ _ wf_sort). split.
  - intros [A [B M]].
    assert (G : given (PInt 1) vs <> None).
    { apply M with (r := mandatory 1 (TAny [])) (t := TAny []); [rule|reflexivity]. }
    cbn in G. destruct (positionals vs) as [|v [|x rest]] eqn:P; cbn in G; try congruence.
    + exists v. split; [reflexivity|]. intros k w st ws I. specialize (B _ _ _ _ I). revert B.
      unfold kw_fits. cbn -[beq b fits].
      destruct (beq k (b "order")) eqn:K1; cbn -[beq fits b].
      { apply beq_eq in K1. intros F. left. split; [exact K1|].
        apply (fits_one_of [b "ascending"; b "descending"]); [discriminate|exact F]. }
      destruct (beq k (b "key")) eqn:K2; cbn -[beq fits b].
      { apply beq_eq in K2. intros F. right. split; [exact K2|]. destruct F as [[a ->] _]. eauto. }
      intros [t [Q _]]. discriminate.
    + exfalso. destruct (A 1 x eq_refl) as [t [Q _]]. discriminate.
  - intros [v [P O]]. split; [|split].
    + intros j q H. rewrite P in H. destruct j as [|j]; cbn in H; [inversion H; subst|destruct j; discriminate].
      table. left. reflexivity.
    + intros k w st ws I. destruct (O _ _ _ _ I) as [[-> T] | [-> [a ->]]]; unfold kw_fits.
      * cbn -[fits b]. apply (fits_one_of [b "ascending"; b "descending"]); [discriminate|exact T].
      * cbn. split; [eauto|left; reflexivity].
    + intros pos r t [[<-|[<-|[<-|[]]]] Hp] Ht; try discriminate; destruct Hp as [<-|[]]; cbn; rewrite P; discriminate.
Qed.

Section WithEnv.
Variable E : env.
Notation ex f := (fun n s => run E f (TNode n) s).
Notation inv f := (fun name c ps s => run E f (TInvoke name c ps) s).

Lemma keys_keyed name c st ns : forall s r,
  settles (fun f => sort_keys (inv f) name c st ns s) r <-> keyed E name c st ns s r.
Proof.
  induction ns as [|n ns IH]; intros s r; cbn [sort_keys].
  { rewrite settles_const_iff. split.
    - intros [-> _]. constructor.
    - intros H. inversion H; subst. split; [reflexivity|discriminate]. }
  set (K := fun f '(key, s) => match key with
      | [k] => match atomic k with
               | None => error ESort (node_site k)
               | Some a => let* '(items, s) := sort_keys (inv f) name c st ns s in
                           Ok ((a_val a, n) :: items, s)
               end
      | _ => error ESort st end : res (list (bytes * node) * state)).
  assert (T : settles (fun f => bind (match run E f (TInvoke name c [n]) s with
                | Err _ => error ESort st | r => r end) (K f)) r <->
     exists q, invokes E name c [n] s q /\
       match q with Ok a => settles (fun f => K f a) r
                  | Err _ => r = Err (EErr ESort st) | _ => fails q r end).
  { assert (G : growing (fun f => match run E f (TInvoke name c [n]) s with
                | Err _ => error ESort st | r => r end)).
    { intros f f' L. destruct (run_le E f f' (TInvoke name c [n]) s L) as [-> | ->]; [left; reflexivity|].
      apply le_refl. }
    rewrite settles_seq by exact G. split.
    - intros [q [[N [f0 Q]] H]]. assert (Q0 := Q f0 (le_n _)). cbv beta in Q0.
      assert (SS : run E f0 (TInvoke name c [n]) s <> OutOfFuel ->
                   invokes E name c [n] s (run E f0 (TInvoke name c [n]) s)).
      { intros W. split; [exact W|]. exists f0. intros f' L.
        destruct (run_le E f0 f' (TInvoke name c [n]) s L) as [Z|Z]; [congruence|symmetry; exact Z]. }
      exists (run E f0 (TInvoke name c [n]) s).
      destruct (run E f0 (TInvoke name c [n]) s) as [a|e|p| |] eqn:R; subst q;
        try (split; [apply SS; discriminate|exact H]).
      congruence.
    - intros [q [Q H]]. exists (match q with Err _ => error ESort st | r => r end). split.
      + destruct Q as [N [f0 Q]]. split; [unfold error; destruct q; congruence|]. exists f0. intros f' L.
        specialize (Q f' L). unfold expand_invocation in Q. rewrite Q. destruct q; reflexivity.
      + destruct q; exact H. }
  change (settles (fun f => bind (match run E f (TInvoke name c [n]) s with
                | Err _ => error ESort st | r => r end) (K f)) r <-> keyed E name c st (n :: ns) s r).
  rewrite T. clear T. unfold K. clear K. split.
  - intros [q [Q H]]. destruct q as [[key s1]|e|p| |]; cbn [fails] in H; try contradiction.
    + destruct key as [|k [|k2 key]].
      * apply settles_const_iff in H as [-> _]. eapply keyed_not_one; [exact Q|discriminate].
      * destruct (atomic k) as [a|] eqn:A.
        -- rewrite settles_seq in H by apply growing_sort. destruct H as [q [Q2 H]]. apply IH in Q2.
           destruct q as [[items s2]|e|p| |]; try (eapply keyed_later; [exact Q|exact A|exact Q2|exact H]).
           apply settles_const_iff in H as [-> _]. eapply keyed_round; [exact Q|exact A|exact Q2].
        -- apply settles_const_iff in H as [-> _]. eapply keyed_not_text; [exact Q|exact A].
      * apply settles_const_iff in H as [-> _]. eapply keyed_not_one; [exact Q|discriminate].
    + subst. eapply keyed_error. exact Q.
    + subst. eapply keyed_panic. exact Q.
    + subst. eapply keyed_hang. exact Q.
  - intros H. inversion H as [|? ? ? k a s1 items s2 Q A M|? ? ? k a s1 q ? Q A M Fq|? ? ? k s1 Q A
                             |? ? ? ks s1 Q L|? ? ? e Q|? ? ? p Q|? ? ? Q]; subst;
      eexists; (split; [exact Q|]).
    + cbv beta iota; rewrite A. rewrite settles_seq by apply growing_sort. exists (Ok (items, s2)).
      split; [apply IH; exact M|]. apply settles_const. discriminate.
    + cbv beta iota; rewrite A. rewrite settles_seq by apply growing_sort. exists q.
      split; [apply IH; exact M|]. destruct q; try exact Fq. contradiction.
    + cbv beta iota; rewrite A. apply settles_const. discriminate.
    + destruct ks as [|x [|y l]]; [|cbn in L; lia|]; apply settles_const; discriminate.
    + reflexivity.
    + reflexivity.
    + reflexivity.
Qed.

Lemma keyed_nodes name c st ns s items s2 :
  keyed E name c st ns s (Ok (items, s2)) -> map snd items = ns.
Proof.
  revert s items s2. induction ns as [|n ns IH]; intros s items s2 H;
    inversion H as [|? ? ? k a s1 its s2' Q A M|? ? ? k a s1 q ? Q A M Fq|? ? ? k s1 Q A
                             |? ? ? ks s1 Q L|? ? ? e Q|? ? ? p Q|? ? ? Q]; subst.
  - reflexivity.
  - cbn. f_equal. eapply IH, M.
  - destruct q; cbn in Fq; try discriminate; contradiction.
Qed.

Lemma eval_sort args n s r :
  is_call (b "sort") args n ->
  eval E n s r <->
  exists q, evals E (received args) (entered n s) q /\
    match q with
    | Ok (vs, s1) =>
        (exists v, positionals vs = [v] /\
           options vs (fun k v => (k = b "order" /\ text_among [b "ascending"; b "descending"] v) \/
                           (k = b "key" /\ exists a, v = Sym a)) /\
           let name := chosen (b "key") (b "do") vs in
           let key_site := match keyword_value (b "key") vs with
                           | Some k => node_site k | None => node_site n end in
           let cmp := by_key E (negb (beq (chosen (b "order") (b "ascending") vs) (b "ascending"))) in
           match v with
           | Lst nodes st ew es _ =>
               exists q1, keyed E name (ref n s) key_site nodes (noted n s s1) q1 /\
                 match q1 with
                 | Ok (items, s2) =>
                     exists q2, sorts E cmp items q2 /\
                       match q2 with
                       | Ok sorted => exists ns, arranged (map snd sorted) nodes ns /\
                           r = Ok ([Lst ns st ew es (leading_ws n)], noted n s s2)
                       | _ => fails q2 r
                       end
                 | _ => fails q1 r
                 end
           | _ => r = Err (EErr ESort (node_site v))
           end) \/
        (~ accepted rules_sort vs /\ exists e, r = Err e /\ arguments rules_sort n vs = Err e)
    | _ => fails q r
    end.
Proof.
  intros C. rewrite (eval_builtin E (b "sort") BSort args n s r eq_refl C).
  set (K := fun f vs s1 =>
     let* x := arguments rules_sort n vs in
     let* v := need as_node (PInt 1) x in
     let* order := want as_atom (PStr (b "order")) x in
     let* key := want as_atom (PStr (b "key")) x in
     let key_site := match key with Some a => a_site a | None => node_site n end in
     let name := val_or (b "do") key in
     let ascending := beq (val_or (b "ascending") order) (b "ascending") in
     match v with
     | Lst nodes st ew es _ =>
      let* '(items, s2) := sort_keys (inv f) name (ref n s) key_site nodes (noted n s s1) in
      let* sorted :=
        sort_by E (fun x y => if ascending then key_cmp E (fst x) (fst y)
                            else key_cmp E (fst y) (fst x)) items in
      Ok ([Lst (with_ws_of (map snd sorted) nodes) st ew es (leading_ws n)], noted n s s2)
     | _ => error ESort (node_site v)
     end : out).
  rewrite (settles_ext _ (fun f => bind (exs (ex f) (received args) (entered n s))
     (fun '(vs, s1) => K f vs s1))).
  2: { intros f. cbn [run_builtin]. unfold do_sort, eager.
       destruct (exs (ex f) (received args) (entered n s)) as [[vs s1]| | | |]; try reflexivity.
       cbn [bind]. unfold K. change (c_node (ref n s)) with n.
       destruct (arguments rules_sort n vs); reflexivity. }
  rewrite settles_seq by apply growing_exs.
  assert (V : forall k d vs, val_or d
     (match keyword_value k vs with Some v => atomic v | None => None end) = chosen k d vs).
  { intros k d vs. unfold chosen. destruct (keyword_value k vs) as [v|]; [|reflexivity].
    destruct (atomic v); reflexivity. }
  enough (H : forall vs s1, settles (fun f => K f vs s1) r <->
     ((exists v, positionals vs = [v] /\
           options vs (fun k v => (k = b "order" /\ text_among [b "ascending"; b "descending"] v) \/
                           (k = b "key" /\ exists a, v = Sym a)) /\
           let name := chosen (b "key") (b "do") vs in
           let key_site := match keyword_value (b "key") vs with
                           | Some k => node_site k | None => node_site n end in
           let cmp := by_key E (negb (beq (chosen (b "order") (b "ascending") vs) (b "ascending"))) in
           match v with
           | Lst nodes st ew es _ =>
               exists q1, keyed E name (ref n s) key_site nodes (noted n s s1) q1 /\
                 match q1 with
                 | Ok (items, s2) =>
                     exists q2, sorts E cmp items q2 /\
                       match q2 with
                       | Ok sorted => exists ns, arranged (map snd sorted) nodes ns /\
                           r = Ok ([Lst ns st ew es (leading_ws n)], noted n s s2)
                       | _ => fails q2 r
                       end
                 | _ => fails q1 r
                 end
           | _ => r = Err (EErr ESort (node_site v))
           end) \/
        (~ accepted rules_sort vs /\ exists e, r = Err e /\ arguments rules_sort n vs = Err e))).
  { split; intros [q [Q Z]]; exists q; (split; [exact Q|]); destruct q as [[vs s1]|e|p| |]; try exact Z;
      apply H; exact Z. }
  intros vs s1. unfold K. clear K. cbv zeta.
  destruct (arguments_cases rules_sort n vs wf_sort) as [[A [x X]] | [A [e X]]].
  2: { rewrite X. cbn [bind]. rewrite settles_const_iff. split.
       - intros [-> _]. right. split; [exact A|]. eauto.
       - intros [[v [P [O _]]] | [_ [e' [-> I]]]].
         + exfalso. apply A. apply accepted_sort. eauto.
         + inversion I; subst. split; [reflexivity|discriminate]. }
  apply accepted_sort in A as AA. destruct AA as [v [P O]].
  rewrite X. cbn [bind].
  rewrite (need_node _ _ _ _ wf_sort X (PInt 1) (mandatory 1 (TAny [])) v []); [|rule|cbn; rewrite P; reflexivity|reflexivity].
  rewrite (want_atom _ _ _ _ wf_sort X (PStr (b "order"))
      (option_named (b "order") (TLiteral (one_of [b "ascending"; b "descending"])))); [|rule|reflexivity].
  rewrite (want_atom _ _ _ _ wf_sort X (PStr (b "key")) (option_named (b "key") (TSymbol []))); [|rule|reflexivity].
  cbn [bind given]. rewrite !V.
  assert (KS : match match keyword_value (b "key") vs with Some v => atomic v | None => None end with
               | Some a => a_site a | None => node_site n end =
               match keyword_value (b "key") vs with Some k => node_site k | None => node_site n end).
  { destruct (keyword_value (b "key") vs) as [k|] eqn:KV; [|reflexivity].
    apply keyword_in in KV as [st [w I]]. destruct (O _ _ _ _ I) as [[Q _]|[_ [a ->]]]; [discriminate|reflexivity]. }
  rewrite KS. clear KS.
  set (ks := match keyword_value (b "key") vs with Some k => node_site k | None => node_site n end). clearbody ks.
  set (name := chosen (b "key") (b "do") vs). clearbody name.
  set (asc := beq (chosen (b "order") (b "ascending") vs) (b "ascending")). clearbody asc.
  assert (LST : forall nodes st ew es,
     settles (fun f => let* '(items, s2) := sort_keys (inv f) name (ref n s) ks nodes (noted n s s1) in
      let* sorted := sort_by E (fun x y => if asc then key_cmp E (fst x) (fst y)
                            else key_cmp E (fst y) (fst x)) items in
      Ok ([Lst (with_ws_of (map snd sorted) nodes) st ew es (leading_ws n)], noted n s s2)) r <->
     exists q1, keyed E name (ref n s) ks nodes (noted n s s1) q1 /\
                 match q1 with
                 | Ok (items, s2) =>
                     exists q2, sorts E (by_key E (negb asc)) items q2 /\
                       match q2 with
                       | Ok sorted => exists ns, arranged (map snd sorted) nodes ns /\
                           r = Ok ([Lst ns st ew es (leading_ws n)], noted n s s2)
                       | _ => fails q2 r
                       end
                 | _ => fails q1 r
                 end).
  { intros nodes st ew es. rewrite settles_seq by apply growing_sort.
    assert (CM : (fun x y => if asc then key_cmp E (fst x) (fst y) else key_cmp E (fst y) (fst x))
                 = by_key E (negb asc)) by (destruct asc; reflexivity).
    rewrite CM. clear CM.
    assert (Z : forall items s2, keyed E name (ref n s) ks nodes (noted n s s1) (Ok (items, s2)) ->
      settles (fun _ : nat => let* sorted := sort_by E (by_key E (negb asc)) items in
        Ok ([Lst (with_ws_of (map snd sorted) nodes) st ew es (leading_ws n)], noted n s s2)) r <->
      (exists q2, sorts E (by_key E (negb asc)) items q2 /\
                       match q2 with
                       | Ok sorted => exists ns, arranged (map snd sorted) nodes ns /\
                           r = Ok ([Lst ns st ew es (leading_ws n)], noted n s s2)
                       | _ => fails q2 r
                       end)).
    { intros items s2 Kd. rewrite settles_const_iff.
      assert (Ln : forall l', sorts E (by_key E (negb asc)) items (Ok l') -> length (map snd l') = length nodes).
      { intros l' S1. rewrite map_length. rewrite (Permutation_length (sorts_perm _ _ _ _ S1)).
        rewrite <- (map_length snd), (keyed_nodes _ _ _ _ _ _ _ Kd). reflexivity. }
      split.
      - intros [-> N]. exists (sort_by E (by_key E (negb asc)) items).
        assert (S1 : sorts E (by_key E (negb asc)) items (sort_by E (by_key E (negb asc)) items)) by (apply sort_by_iff; reflexivity).
        split; [exact S1|]. destruct (sort_by E (by_key E (negb asc)) items) as [l'|e|p| |]; cbn [bind] in *; try reflexivity.
        + exists (with_ws_of (map snd l') nodes). split; [apply arranged_with, Ln, S1|reflexivity].
        + congruence.
      - intros [q2 [S1 Hq]]. pose proof S1 as S2. apply sort_by_iff in S2. rewrite S2.
        destruct q2 as [l'|e|p| |]; cbn [bind fails] in *; try (subst r; split; [reflexivity|discriminate]); [|contradiction].
        destruct Hq as [ns [Ar ->]].
        rewrite (arranged_fun _ _ _ _ Ar (arranged_with _ _ (Ln _ S1))). split; [reflexivity|discriminate]. }
    split; intros [q [Q W]]; apply keys_keyed in Q as Kd; exists q; (split; [exact Kd||exact Q|]);
      destruct q as [[items s2]|e|p| |]; try exact W; apply Z; assumption. }
  assert (NE : settles (fun f : nat => match v with
     | Lst nodes st ew es _ =>
      let* '(items, s2) := sort_keys (inv f) name (ref n s) ks nodes (noted n s s1) in
      let* sorted := sort_by E (fun x y => if asc then key_cmp E (fst x) (fst y)
                            else key_cmp E (fst y) (fst x)) items in
      Ok ([Lst (with_ws_of (map snd sorted) nodes) st ew es (leading_ws n)], noted n s s2)
     | _ => error ESort (node_site v) end) r <->
     match v with
           | Lst nodes st ew es _ =>
               exists q1, keyed E name (ref n s) ks nodes (noted n s s1) q1 /\
                 match q1 with
                 | Ok (items, s2) =>
                     exists q2, sorts E (by_key E (negb asc)) items q2 /\
                       match q2 with
                       | Ok sorted => exists ns, arranged (map snd sorted) nodes ns /\
                           r = Ok ([Lst ns st ew es (leading_ws n)], noted n s s2)
                       | _ => fails q2 r
                       end
                 | _ => fails q1 r
                 end
           | _ => r = Err (EErr ESort (node_site v))
           end).
  { destruct v; try apply LST; rewrite settles_const_iff;
      (split; [tauto|intros ->; split; [reflexivity|discriminate]]). }
  rewrite NE. split.
  - intros H. left. exists v. split; [exact P|]. split; [exact O|exact H].
  - intros [[v' [P' [_ H]]] | [N _]]; [|contradiction]. rewrite P in P'. inversion P'; subst. exact H.
Qed.
End WithEnv.
