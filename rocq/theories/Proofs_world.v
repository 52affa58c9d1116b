(** * Proofs about time zones and listings of files *)

From Coq Require Import String List Ascii Bool Arith NArith ZArith Lia Sorted Permutation.
From Verif Require Import Text Res Ast Env Numbers Paths Sorting Expander Spec_scope Spec_sort Spec_world
  Proofs_text Proofs_sort Proofs_scope Proofs_collect.
Import ListNotations.

(** ** Time zones *)

Open Scope Z_scope.

Lemma round_nearest x : let r := round_fixed x in
  2 * Z.abs (r * 2 ^ 32 - x) <= 2 ^ 32 /\
  (2 * Z.abs (r * 2 ^ 32 - x) = 2 ^ 32 -> Z.abs x < Z.abs (r * 2 ^ 32)).
Proof.
  cbv zeta. unfold round_fixed.
  pose proof (Z.div_mod (Z.abs x + 2 ^ 31) (2 ^ 32) ltac:(lia)) as D.
  pose proof (Z.mod_pos_bound (Z.abs x + 2 ^ 31) (2 ^ 32) ltac:(lia)) as M.
  set (q := (Z.abs x + 2 ^ 31) / 2 ^ 32) in *. set (m := (Z.abs x + 2 ^ 31) mod 2 ^ 32) in *.
  assert (0 <= q) by (apply Z.div_pos; lia).
  destruct (Z.sgn_spec x) as [[? ->]|[[? ->]|[? ->]]]; lia.
Qed.

Lemma nearest_round h : nearest_second h (round_fixed (3600 * h)).
Proof. exact (round_nearest (3600 * h)). Qed.

Lemma nearest_unique h r r' : nearest_second h r -> nearest_second h r' -> r = r'.
Proof. unfold nearest_second. intros [A B] [C D]. lia. Qed.

Lemma timezone_given E a h : e_fixed E (a_val a) = Some h ->
  (representable h -> exists r, timezone E (Some a) = Ok r /\ nearest_second h r) /\
  (~ representable h -> timezone E (Some a) = Panic POverflow).
Proof.
  intros F. unfold timezone. rewrite F. unfold checked, fits_i64.
  pose proof (nearest_round h) as N. unfold representable, nearest_second in *.
  replace (h * 60 * 60) with (3600 * h) by lia. set (r := round_fixed (3600 * h)) in *.
  split.
  - intros R. exists r. split; [|exact N].
    destruct (_ && _) eqn:A1; [|apply andb_false_iff in A1; lia]. cbn [bind].
    replace (h * 60 * 60) with (3600 * h) by lia. fold r.
    destruct ((- 2 ^ 63 <=? 3600 * h) && _) eqn:A2; [|apply andb_false_iff in A2; lia]. cbn [bind]. fold r.
    destruct ((- 2 ^ 63 <=? r * 2 ^ 32) && _) eqn:A3; [reflexivity|]. apply andb_false_iff in A3. lia.
  - intros R. destruct ((_ <=? h * 60) && _) eqn:A1; [|reflexivity]. cbn [bind].
    replace (h * 60 * 60) with (3600 * h) by lia.
    destruct ((- 2 ^ 63 <=? 3600 * h) && _) eqn:A2; [|reflexivity]. cbn [bind]. fold r.
    destruct ((- 2 ^ 63 <=? r * 2 ^ 32) && _) eqn:A3; [|reflexivity].
    exfalso. rewrite andb_true_iff in *. lia.
Qed.

(** Rounding the decimal to the fixed-point grid does not change an offset
    of whole seconds, and moves others by less than a millionth. *)
Lemma nearest_whole m k h q r :
  nearest_fixed m k h -> nearest_second h r -> 3600 * m = q * 10 ^ Z.of_nat k -> r = q.
Proof.
  unfold nearest_fixed, nearest_second. set (T := 10 ^ Z.of_nat k).
  assert (P : 0 < T) by (apply Z.pow_pos_nonneg; lia). clearbody T. intros F [N _] W.
  assert (Q : 2 * Z.abs (3600 * h - q * 2 ^ 32) <= 3600).
  { assert (X : (3600 * h - q * 2 ^ 32) * T = 3600 * (h * T - m * 2 ^ 32)) by lia.
    assert (Y : Z.abs (3600 * h - q * 2 ^ 32) * T = 3600 * Z.abs (h * T - m * 2 ^ 32)).
    { rewrite <- (Z.abs_eq T) at 1 by lia. rewrite <- Z.abs_mul, X, Z.abs_mul. reflexivity. }
    nia. }
  lia.
Qed.

Lemma nearest_close m k h r :
  nearest_fixed m k h -> nearest_second h r ->
  2 ^ 33 * Z.abs (r * 10 ^ Z.of_nat k - 3600 * m) <= (2 ^ 32 + 3600) * 10 ^ Z.of_nat k.
Proof.
  unfold nearest_fixed, nearest_second. set (T := 10 ^ Z.of_nat k).
  assert (P : 0 < T) by (apply Z.pow_pos_nonneg; lia). clearbody T. intros F [N _].
  set (d := r * 2 ^ 32 - 3600 * h) in *. set (e := h * T - m * 2 ^ 32) in *.
  assert (X : 2 ^ 32 * (r * T - 3600 * m) = d * T + 3600 * e) by (unfold d, e; lia).
  assert (Y : 2 ^ 32 * Z.abs (r * T - 3600 * m) = Z.abs (d * T + 3600 * e)) by (rewrite <- X, Z.abs_mul; reflexivity).
  assert (W : Z.abs (d * T) = Z.abs d * T) by (rewrite Z.abs_mul, (Z.abs_eq T); lia).
  pose proof (Z.abs_triangle (d * T) (3600 * e)) as V. rewrite W, (Z.abs_mul 3600 e) in V. clearbody d e. nia.
Qed.

Lemma east_within z : east_ok z = true <-> within_day z.
Proof. unfold east_ok, within_day. rewrite andb_true_iff. lia. Qed.

Close Scope Z_scope.

(** ** Orders *)

Record ordering {A} (cmp : A -> A -> comparison) : Prop := {
  o_sym : forall x y, cmp y x = CompOpp (cmp x y);
  o_lt : forall x y z, cmp x y = Lt -> cmp y z = Lt -> cmp x z = Lt;
  o_eq : forall x y z, cmp x y = Eq -> cmp x z = cmp y z
}.
Definition lex {A} (c1 c2 : A -> A -> comparison) (x y : A) : comparison :=
  match c1 x y with Eq => c2 x y | o => o end.
Definition by_key {A B} (f : A -> B) (cmp : B -> B -> comparison) (x y : A) : comparison := cmp (f x) (f y).

Lemma lex_ordering {A} (c1 c2 : A -> A -> comparison) : ordering c1 -> ordering c2 -> ordering (lex c1 c2).
Proof.
  intros [S1 L1 E1] [S2 L2 E2]. unfold lex. split.
  - intros x y. rewrite (S1 x y). destruct (c1 x y); cbn; [apply S2|reflexivity|reflexivity].
  - intros x y z. destruct (c1 x y) eqn:H; [|intros _|discriminate].
    + rewrite (E1 x y z H). destruct (c1 y z); [apply L2|reflexivity|discriminate].
    + destruct (c1 y z) eqn:H'; [intros _|intros _; rewrite (L1 x y z H H'); reflexivity|discriminate].
      assert (Q : c1 z y = Eq) by (rewrite S1, H'; reflexivity).
      assert (X : c1 z x = c1 y x) by (apply E1, Q). rewrite (S1 z x), X, (S1 x y), H. reflexivity.
  - intros x y z. destruct (c1 x y) eqn:H; try discriminate. intros H'.
    rewrite (E1 x y z H). destruct (c1 y z); [|reflexivity..]. apply E2, H'.
Qed.
Lemma key_ordering {A B} (f : A -> B) cmp : ordering cmp -> ordering (by_key f cmp).
Proof. intros [S L E]. unfold by_key. split; intros; eauto. Qed.
Lemma Z_ordering : ordering (fun x y => Z.compare y x).
Proof.
  split.
  - intros x y. apply Z.compare_antisym.
  - intros x y z. rewrite !Z.compare_lt_iff. lia.
  - intros x y z. rewrite Z.compare_eq_iff. intros ->. reflexivity.
Qed.
Lemma bytes_ordering : ordering bytes_cmp.
Proof.
  split.
  - intros x y. apply bytes_cmp_sym.
  - intros x y z H H'. destruct (bytes_cmp x z) eqn:Q; [|reflexivity|].
    + apply bytes_cmp_eq in Q. subst. rewrite bytes_cmp_sym, H in H'. discriminate.
    + exfalso. apply (bytes_cmp_trans x y z); congruence.
  - intros x y z H. apply bytes_cmp_eq in H. subst. reflexivity.
Qed.
Definition opt_cmp {A} (cmp : A -> A -> comparison) (x y : option A) : comparison :=
  match x, y with
  | None, None => Eq | None, Some _ => Lt | Some _, None => Gt | Some a, Some c => cmp a c
  end.
Lemma opt_ordering {A} (cmp : A -> A -> comparison) : ordering cmp -> ordering (opt_cmp cmp).
Proof.
  intros [S L E]. split.
  - intros [x|] [y|]; cbn; auto.
  - intros [x|] [y|] [z|]; cbn; try discriminate; auto. apply L.
  - intros [x|] [y|] [z|]; cbn; try discriminate; auto.
Qed.
Lemma path_ordering : ordering path_cmp.
Proof. split; [intros; apply path_cmp_sym|apply path_cmp_lt_trans|intros; apply path_cmp_eq_l; assumption]. Qed.
Definition bool_cmp (x y : bool) : comparison :=
  match x, y with true, false => Lt | false, true => Gt | _, _ => Eq end.
Lemma bool_ordering : ordering bool_cmp.
Proof. split; [intros [] []|intros [] [] []|intros [] [] []]; cbn; congruence. Qed.

(** ** Listings *)

Definition moment (o : option Z) : Z := match o with Some z => z | None => 0%Z end.
Definition ideal (k : sort_key) : found -> found -> comparison :=
  let name := by_key f_path path_cmp in
  match k with
  | ByModified => lex (by_key (fun f => moment (modified (f_meta f))) (fun x y => Z.compare y x)) name
  | ByCreated => lex (by_key (fun f => moment (created (f_meta f))) (fun x y => Z.compare y x)) name
  | ByName | ByNone => name
  | ByType => lex (by_key (fun f => is_dir (f_meta f)) bool_cmp)
                (lex (by_key (fun f => extension (f_path f)) (opt_cmp bytes_cmp)) name)
  end.
Lemma ideal_ordering k : ordering (ideal k).
Proof.
  assert (N : ordering (by_key f_path path_cmp)) by apply key_ordering, path_ordering.
  destruct k; cbn; auto; repeat apply lex_ordering; auto; apply key_ordering;
    auto using Z_ordering, bool_ordering, opt_ordering, bytes_ordering.
Qed.

Lemma time_ideal t u p q : time_cmp (Some t) (Some u) p q =
  match Z.compare u t with Eq => path_cmp p q | o => o end.
Proof.
  unfold time_cmp. destruct (Z.eqb_spec t u) as [->|N]; [rewrite Z.compare_refl; reflexivity|].
  destruct (Z.compare u t) eqn:Q; try reflexivity. apply Z.compare_eq in Q. congruence.
Qed.

Lemma found_ideal k x y : k <> ByNone -> comparable k x -> comparable k y -> found_cmp k x y = ideal k x y.
Proof.
  intros N. destruct k; cbn [found_cmp ideal comparable]; unfold lex, by_key; intros X Y.
  - destruct (modified (f_meta x)) as [t|], (modified (f_meta y)) as [u|]; try congruence. apply time_ideal.
  - destruct (created (f_meta x)) as [t|], (created (f_meta y)) as [u|]; try congruence. apply time_ideal.
  - reflexivity.
  - rewrite X, Y. destruct (is_dir (f_meta x)), (is_dir (f_meta y)); cbn; try reflexivity.
    all: destruct (extension (f_path x)) as [e|], (extension (f_path y)) as [e'|]; cbn; try reflexivity.
    all: destruct (beq e e') eqn:B; [apply beq_eq in B; subst; assert (Q : bytes_cmp e' e' = Eq) by (apply bytes_cmp_eq; reflexivity);
      rewrite Q; reflexivity|apply beq_neq in B; destruct (bytes_cmp e e') eqn:Q; try reflexivity; apply bytes_cmp_eq in Q; congruence].
  - congruence.
Qed.

Lemma ideal_before k x y : k <> ByNone -> comparable k x -> comparable k y -> (ideal k x y = Lt <-> before k x y).
Proof.
  intros N. destruct k; cbn [ideal comparable before]; unfold lex, by_key, newer, name_before; intros X Y.
  - destruct (modified (f_meta x)) as [t|] eqn:Tx, (modified (f_meta y)) as [u|] eqn:Ty; try congruence. cbn [moment].
    destruct (Z.compare_spec u t); split; intros H'.
    + subst. exists t, t. split; [reflexivity|]. split; [reflexivity|]. right. auto.
    + destruct H' as [a [c [A [C H']]]]. assert (a = t) by congruence. assert (c = u) by congruence. destruct H' as [H'|[_ H']]; [lia|exact H'].
    + exists t, u. split; [reflexivity|]. split; [reflexivity|]. left. lia.
    + reflexivity.
    + discriminate.
    + destruct H' as [a [c [A [C H']]]]. assert (a = t) by congruence. assert (c = u) by congruence. lia.
  - destruct (created (f_meta x)) as [t|] eqn:Tx, (created (f_meta y)) as [u|] eqn:Ty; try congruence. cbn [moment].
    destruct (Z.compare_spec u t); split; intros H'.
    + subst. exists t, t. split; [reflexivity|]. split; [reflexivity|]. right. auto.
    + destruct H' as [a [c [A [C H']]]]. assert (a = t) by congruence. assert (c = u) by congruence. destruct H' as [H'|[_ H']]; [lia|exact H'].
    + exists t, u. split; [reflexivity|]. split; [reflexivity|]. left. lia.
    + reflexivity.
    + discriminate.
    + destruct H' as [a [c [A [C H']]]]. assert (a = t) by congruence. assert (c = u) by congruence. lia.
  - reflexivity.
  - unfold extension_before. destruct (is_dir (f_meta x)) eqn:Dx, (is_dir (f_meta y)) eqn:Dy; cbn [bool_cmp].
    2: { split; [intros _; left; auto|reflexivity]. }
    2: { split; [discriminate|]. intros [[H _]|[H _]]; discriminate. }
    all: destruct (extension (f_path x)) as [e|], (extension (f_path y)) as [e'|]; cbn [opt_cmp].
    all: try (destruct (bytes_cmp e e') eqn:Q; [apply bytes_cmp_eq in Q; subst| |]).
    all: split; intros H; try discriminate; try reflexivity.
    all: try (right; split; [reflexivity|]; (left; (exact I || reflexivity)) || (right; auto)).
    all: destruct H as [[H1 H2]|[_ [H|[H1 H2]]]]; try discriminate; try contradiction; try assumption.
    all: inversion H1; subst; assert (Q' : bytes_cmp e' e' = Eq) by (apply bytes_cmp_eq; reflexivity); congruence.
  - congruence.
Qed.

Lemma bt_insert_ext {A} (c1 c2 : A -> A -> comparison) x l : (forall y, In y l -> c1 x y = c2 x y) ->
  bt_insert c1 x l = bt_insert c2 x l.
Proof.
  induction l as [|y l IH]; intros H; cbn; [reflexivity|].
  rewrite (H y (or_introl eq_refl)). destruct (c2 x y); [reflexivity|reflexivity|].
  rewrite IH; [reflexivity|]. intros z I. apply H. right. exact I.
Qed.

(** What is collected from complete entries. *)
Lemma entries_all t l all : all_found l = Some all -> glob_entries t l = Ok (Some (listing t all)).
Proof.
  revert all. induction l as [|[[p [m|]]|] l IH]; intros all F; cbn in F; try discriminate.
  - inversion F. reflexivity.
  - destruct (all_found l) as [fs|]; [|discriminate]. cbn in F. inversion F; subst.
    cbn [glob_entries listing filter f_meta]. change (match t with OnlyFiles => is_file m | OnlyDirs => is_dir m | AnyPath => true end) with (wanted t m).
    rewrite (IH fs eq_refl). destruct (wanted t m); reflexivity.
Qed.
Lemma collect_all E t k l all : all_found l = Some all ->
  glob_collect E t k l = Ok (Some (bt_collect E (found_cmp k) (listing t all))).
Proof. intros F. unfold glob_collect. rewrite (entries_all t l all F). reflexivity. Qed.

Lemma entries_none t l : all_found l = None ->
  glob_entries t l = Ok None \/ (glob_entries t l = Panic PUnwrap /\ exists p, In (Some (p, None)) l).
Proof.
  induction l as [|[[p [m|]]|] l IH]; intros F; cbn in F; try discriminate.
  - destruct (all_found l) as [fs|]; [discriminate|]. cbn [glob_entries].
    destruct (IH eq_refl) as [H|[H [p' I]]]; rewrite H; [left; reflexivity|right].
    split; [reflexivity|]. exists p'. right. exact I.
  - right. split; [reflexivity|]. exists p. left. reflexivity.
  - left. reflexivity.
Qed.
Lemma collect_none E t k l : all_found l = None ->
  glob_collect E t k l = Ok None \/ (glob_collect E t k l = Panic PUnwrap /\ exists p, In (Some (p, None)) l).
Proof.
  intros F. unfold glob_collect. destruct (entries_none t l F) as [H|[H P]]; rewrite H; cbn; auto.
Qed.

Lemma comparable_order k l : k <> ByNone -> Forall (comparable k) l -> is_order (found_cmp k) l = true.
Proof.
  intros N C. rewrite Forall_forall in C. apply is_order_iff. pose proof (ideal_ordering k) as [SY LT EQ]. split.
  - intros x y X Y. rewrite !found_ideal by auto. apply SY.
  - intros x y z X Y Z. rewrite !found_ideal by auto. intros H1 H2 H3.
    destruct (ideal k x y) eqn:Q1; [| |congruence].
    + rewrite (EQ _ _ z Q1) in H3. congruence.
    + destruct (ideal k y z) eqn:Q2; [| |congruence].
      * assert (Q3 : ideal k z y = Eq) by (rewrite SY, Q2; reflexivity).
        pose proof (EQ _ _ x Q3) as Q4. rewrite (SY x z), (SY x y), Q1, H3 in Q4. discriminate.
      * rewrite (LT _ _ _ Q1 Q2) in H3. discriminate.
Qed.
Lemma comparable_collect E k l : k <> ByNone -> Forall (comparable k) l ->
  bt_collect E (found_cmp k) l = fold_left (fun s f => bt_insert (found_cmp k) f s) l [].
Proof. intros N C. unfold bt_collect. rewrite (comparable_order k l N C). reflexivity. Qed.

Lemma folded_ideal k l : k <> ByNone -> forall set, Forall (comparable k) l -> Forall (comparable k) set ->
  StronglySorted (fun x y => ideal k x y = Lt) set ->
  let final := fold_left (fun s f => bt_insert (found_cmp k) f s) l set in
  StronglySorted (fun x y => ideal k x y = Lt) final /\ Forall (comparable k) final /\
  (forall x, In x final -> In x l \/ In x set) /\
  (forall x, In x set -> In x final) /\
  (forall x, In x l -> exists y, In y final /\ ideal k x y = Eq).
Proof.
  intros N. induction l as [|f l IH]; intros set CL CS S; cbn.
  - repeat split; auto. intros x [].
  - inversion CL as [|? ? C1 C2]; subst.
    assert (X : bt_insert (found_cmp k) f set = bt_insert (ideal k) f set).
    { apply bt_insert_ext. intros y I. rewrite Forall_forall in CS. apply found_ideal; auto. }
    rewrite X. pose proof (ideal_ordering k) as [SY LT EQ].
    destruct (IH (bt_insert (ideal k) f set) C2) as [A [B [C [D F]]]].
    { apply Forall_forall. intros y I. apply bt_insert_in in I as [->|I]; [exact C1|]. rewrite Forall_forall in CS. auto. }
    { apply bt_insert_increasing; assumption. }
    split; [exact A|]. split; [exact B|]. split; [|split].
    + intros x I. destruct (C x I) as [J|J]; [auto|]. apply bt_insert_in in J as [->|J]; auto.
    + intros x I. apply D, bt_insert_keeps, I.
    + intros x [<-|I]; [|apply F, I]. destruct (bt_insert_has (ideal k) f set) as [y [I J]].
      exists y. split; [apply D, I|]. destruct J as [->|J]; [|exact J].
      destruct (ideal k f f) eqn:Q; [reflexivity| |]; pose proof (SY f f) as Z; rewrite Q in Z; discriminate.
Qed.

Lemma ideal_eq_path k x y : ideal k x y = Eq -> same_path (f_path x) (f_path y).
Proof.
  unfold same_path. destruct k; cbn [ideal]; unfold lex, by_key; intros H; auto;
    repeat match type of H with match ?e with _ => _ end = _ => destruct e; try discriminate end; auto.
Qed.
Lemma ideal_same k x y : f_meta x = f_meta y -> f_path x = f_path y -> ideal k x y = Eq.
Proof.
  intros M P. assert (R : path_cmp (f_path y) (f_path y) = Eq) by (apply path_cmp_eq; reflexivity).
  destruct k; cbn [ideal]; unfold lex, by_key; rewrite ?M, ?P, ?Z.compare_refl; auto.
  destruct (is_dir (f_meta y)); cbn; destruct (extension (f_path y)) as [e|]; cbn; auto;
  replace (bytes_cmp e e) with Eq by (symmetry; apply bytes_cmp_eq; reflexivity); exact R.
Qed.

Theorem glob_sorted E t k l all : k <> ByNone -> all_found l = Some all -> Forall (comparable k) (listing t all) ->
  exists out, glob_collect E t k l = Ok (Some out) /\
    StronglySorted (before k) out /\
    (forall x, In x out -> In x (listing t all)) /\
    (forall x, In x (listing t all) -> exists y, In y out /\ same_path (f_path x) (f_path y) /\
       ~ before k x y /\ ~ before k y x).
Proof.
  intros N F C. rewrite (collect_all _ _ _ _ _ F), (comparable_collect E k _ N C). eexists. split; [reflexivity|].
  destruct (folded_ideal k (listing t all) N [] C ltac:(constructor) ltac:(constructor)) as [A [B [D [_ G]]]].
  split; [|split].
  - clear - N A B. induction A as [|x out A IH M]; [constructor|]. inversion B as [|? ? B1 B2]; subst.
    constructor; [auto|]. rewrite Forall_forall in *. intros y I. apply ideal_before; auto.
  - intros x I. destruct (D x I) as [J|[]]. exact J.
  - intros x I. destruct (G x I) as [y [J Q]]. exists y. split; [exact J|]. split; [exact (ideal_eq_path k x y Q)|].
    rewrite Forall_forall in B, C. pose proof (ideal_ordering k) as [SY _ _].
    split; intros H; apply ideal_before in H; auto; [congruence|]. rewrite SY, Q in H. discriminate.
Qed.

(** Without repeated paths nothing is lost. *)
Theorem glob_permutes E t k l all out : k <> ByNone -> all_found l = Some all -> Forall (comparable k) (listing t all) ->
  ForallOrdPairs (fun x y => ~ same_path (f_path x) (f_path y)) (listing t all) ->
  glob_collect E t k l = Ok (Some out) -> Permutation out (listing t all).
Proof.
  intros N F C U H. destruct (glob_sorted E t k l all N F C) as [out' [H' [S [A B]]]].
  rewrite H in H'. inversion H'; subst out'. clear H'.
  assert (P : forall x y, In x (listing t all) -> In y (listing t all) -> same_path (f_path x) (f_path y) -> x = y).
  { intros x y X Y Q. destruct (ForallOrdPairs_In U x y X Y) as [Z|[Z|Z]]; [exact Z|contradiction|].
    exfalso. apply Z. unfold same_path in *. rewrite path_cmp_sym, Q. reflexivity. }
  apply NoDup_Permutation.
  - clear - S C A. assert (C' : Forall (comparable k) out).
    { apply Forall_forall. intros x I. rewrite Forall_forall in C. auto. }
    clear C A. induction S as [|x out S IH M]; [constructor|]. inversion C' as [|? ? C1 C2]; subst.
    constructor; [|auto]. intros I. rewrite Forall_forall in M. specialize (M x I).
    destruct k; cbn in M, C1.
    + destruct M as [a [c [Q1 [Q2 M]]]]. assert (a = c) by congruence. destruct M as [M|[_ M]]; [lia|].
      unfold name_before in M. assert (R : path_cmp (f_path x) (f_path x) = Eq) by (apply path_cmp_eq; reflexivity). congruence.
    + destruct M as [a [c [Q1 [Q2 M]]]]. assert (a = c) by congruence. destruct M as [M|[_ M]]; [lia|].
      unfold name_before in M. assert (R : path_cmp (f_path x) (f_path x) = Eq) by (apply path_cmp_eq; reflexivity). congruence.
    + unfold name_before in M. assert (R : path_cmp (f_path x) (f_path x) = Eq) by (apply path_cmp_eq; reflexivity). congruence.
    + assert (R : path_cmp (f_path x) (f_path x) = Eq) by (apply path_cmp_eq; reflexivity).
      destruct M as [[M1 M2]|[_ [M|[_ M]]]]; [congruence| |unfold name_before in M; congruence].
      unfold extension_before in M. destruct (extension (f_path x)) as [e|]; [|exact M].
      assert (R' : bytes_cmp e e = Eq) by (apply bytes_cmp_eq; reflexivity). congruence.
    + exact M.
  - clear - U. induction U as [|x l M U IH]; constructor; [|exact IH]. intros I. rewrite Forall_forall in M.
    apply (M x I). apply path_cmp_eq. reflexivity.
  - intros x. split; [apply A|]. intros I. destruct (B x I) as [y [J [Q _]]]. rewrite (P x y I (A y J) Q). exact J.
Qed.

Theorem glob_unsorted E t l all : all_found l = Some all ->
  glob_collect E t ByNone l = Ok (Some (rev (listing t all))).
Proof.
  intros F. rewrite (collect_all _ _ _ _ _ F). do 2 f_equal.
  apply collect_iff. apply collected_reverse. intros x y _ _. reflexivity.
Qed.
