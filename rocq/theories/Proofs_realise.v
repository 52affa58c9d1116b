(** * Every binding that a pattern allows is made under some order of hash maps *)

From Coq Require Import String List Ascii Bool Arith NArith ZArith Lia Permutation.
From Verif Require Import Text Res Ast Env Scope State Bind
  Spec_args Spec_expand Spec_builtin Spec_bind Spec_control Spec_errors Spec_order
  Proofs_text Proofs_ast Proofs_args Proofs_bind Proofs_errors.
Import ListNotations.

Definition orders := nat -> list bytes -> list bytes.
Definition perm (o : orders) : Prop := forall seed l, Permutation (o seed l) l.
Definition seed_of (s : state) : nat := g_seed (x_world s).

(** [o'] agrees with [o] on the seeds from [lo] up to [hi]. *)
Definition agree (lo hi : nat) (o o' : orders) : Prop :=
  forall i l, lo <= i -> i < hi -> o' i l = o i l.
Definition agree_from (lo : nat) (o o' : orders) : Prop :=
  forall i l, lo <= i -> o' i l = o i l.
(** [o1] below [n], then [o2]. *)
Definition joined (n : nat) (o1 o2 : orders) : orders :=
  fun i l => if i <? n then o1 i l else o2 i l.

Lemma perm_id : perm (fun _ l => l).
Proof. intros i l. reflexivity. Qed.
Lemma perm_joined n o1 o2 : perm o1 -> perm o2 -> perm (joined n o1 o2).
Proof. intros A B i l. unfold joined. destruct (i <? n); auto. Qed.
Lemma agree_left lo m hi o1 o2 o' : m <= hi -> agree lo hi (joined m o1 o2) o' -> agree lo m o1 o'.
Proof.
  intros L A i l H1 H2. rewrite A by lia. unfold joined. rewrite (proj2 (Nat.ltb_lt i m) H2). reflexivity.
Qed.
Lemma agree_right lo m hi o1 o2 o' : lo <= m -> agree lo hi (joined m o1 o2) o' -> agree m hi o2 o'.
Proof.
  intros L A i l H1 H2. rewrite A by lia. unfold joined. rewrite (proj2 (Nat.ltb_ge i m) H1). reflexivity.
Qed.
Lemma agree_from_left lo m o1 o2 o' : agree_from lo (joined m o1 o2) o' -> agree lo m o1 o'.
Proof.
  intros A i l H1 H2. rewrite A by lia. unfold joined. rewrite (proj2 (Nat.ltb_lt i m) H2). reflexivity.
Qed.
Lemma agree_from_right lo m o1 o2 o' : lo <= m -> agree_from lo (joined m o1 o2) o' -> agree_from m o2 o'.
Proof.
  intros L A i l H1. rewrite A by lia. unfold joined. rewrite (proj2 (Nat.ltb_ge i m) H1). reflexivity.
Qed.
Lemma agree_refl lo hi o : agree lo hi o o.
Proof. intros i l _ _. reflexivity. Qed.
Lemma agree_from_refl lo o : agree_from lo o o.
Proof. intros i l _. reflexivity. Qed.
Lemma agree_weak lo hi lo' hi' o o' : lo <= lo' -> hi' <= hi -> agree lo hi o o' -> agree lo' hi' o o'.
Proof. intros A B H i l C D. apply H; lia. Qed.

(** One list in a chosen order. *)
Definition chosen_order (seed : nat) (l0 l1 : list bytes) : orders :=
  fun i l => if (i =? seed) && (if list_eq_dec (list_eq_dec ascii_dec) l l0 then true else false) then l1 else l.
Lemma perm_chosen seed l0 l1 : Permutation l1 l0 -> perm (chosen_order seed l0 l1).
Proof.
  intros P i l. unfold chosen_order. destruct (i =? seed); [|reflexivity]. cbn.
  destruct (list_eq_dec _ l l0) as [->|]; [exact P|reflexivity].
Qed.
Lemma chosen_at seed l0 l1 : chosen_order seed l0 l1 seed l0 = l1.
Proof.
  unfold chosen_order. rewrite Nat.eqb_refl. cbn. destruct (list_eq_dec _ l0 l0); congruence.
Qed.
Lemma chosen_else seed l0 l1 i l : i <> seed -> chosen_order seed l0 l1 i l = l.
Proof. intros H. unfold chosen_order. rewrite (proj2 (Nat.eqb_neq i seed) H). reflexivity. Qed.

Section WithEnv.
Variable E : env.

Lemma order_with o : perm o -> forall seed l, Permutation (e_order (with_order o E) seed l) l.
Proof. intros H. exact H. Qed.

(** ** The last step of a binding *)

Definition left_over (pats vals : list node) : list (bytes * node) :=
  List.filter (fun '(j, _) => negb (existsb (fun k => beq k j) (map fst (inserts (lpairs pats) []))))
    (inserts (rpairs vals) []).

Lemma left_over_nodup pats vals : NoDup (map fst (left_over pats vals)).
Proof.
  unfold left_over. set (keys := map fst (inserts (lpairs pats) [])).
  assert (N2 : NoDup (map fst (inserts (rpairs vals) []))) by (apply inserts_nodup; constructor).
  revert N2. generalize (inserts (rpairs vals) []). clear. intros l N2.
  induction l as [|[j n] l IH]; [constructor|]. inversion N2; subst. cbn.
  destruct (existsb _ keys); cbn; [auto|]. constructor; [|auto].
  intros I. apply H1. apply in_map_iff in I as [[j' m] [Q I]]. cbn in Q. subst.
  apply filter_In in I as [I _]. change j with (fst (j, m)). apply in_map, I.
Qed.

Lemma left_over_key pats vals k n : In (k, n) (left_over pats vals) -> k = key_of n.
Proof.
  intros I. apply filter_In in I as [I _]. apply (Permutation_in _ (rmap_perm vals)) in I.
  apply in_map_iff in I as [m [Q _]]. inversion Q. reflexivity.
Qed.

Lemma left_over_perm pats vals : Permutation (map snd (left_over pats vals)) (surplus_keywords pats vals).
Proof. apply surplus_perm. reflexivity. Qed.

Lemma left_over_entries pats vals kwrest : Permutation kwrest (surplus_keywords pats vals) ->
  Permutation (map key_of kwrest) (map fst (left_over pats vals)) /\
  entries (map key_of kwrest) (left_over pats vals) = kwrest.
Proof.
  intros P. split.
  - transitivity (map key_of (map snd (left_over pats vals))).
    + apply Permutation_map. rewrite P. symmetry. apply left_over_perm.
    + rewrite map_map. apply Permutation_refl'. apply map_ext_in. intros [k n] I. cbn.
      symmetry. eapply left_over_key, I.
  - assert (G : forall ns, (forall n, In n ns -> In n (map snd (left_over pats vals))) ->
      entries (map key_of ns) (left_over pats vals) = ns).
    { induction ns as [|n ns IH]; intros H; [reflexivity|].
      unfold entries in *. cbn [map flat_map].
      assert (I : In n (map snd (left_over pats vals))) by (apply H; left; reflexivity).
      apply in_map_iff in I as [[k m] [Q I]]. cbn in Q. subst m.
      pose proof (left_over_key _ _ _ _ I) as K. subst k.
      apply in_assoc in I; [|apply left_over_nodup]. rewrite I. cbn. f_equal. apply IH.
      intros m J. apply H. right. exact J. }
    apply G. intros n I. eapply Permutation_in; [symmetry; apply left_over_perm|].
    eapply Permutation_in; [exact P|exact I].
Qed.

(** The order that takes surplus keywords as in [kwrest]. *)
Definition taking (seed : nat) (pats vals kwrest : list node) : orders :=
  chosen_order seed (map fst (left_over pats vals)) (map key_of kwrest).

Lemma perm_taking seed pats vals kwrest : Permutation kwrest (surplus_keywords pats vals) ->
  perm (taking seed pats vals kwrest).
Proof. intros P. apply perm_chosen, left_over_entries, P. Qed.

(** [bind_rest] under such an order. *)
Lemma bind_rest_taking pats vals seed p s kwrest o' :
  pats_of pats vals p -> Permutation kwrest (surplus_keywords pats vals) ->
  agree seed (2 + seed) (taking seed pats vals kwrest) o' ->
  bind_rest (with_order o' E) seed p s =
  let* s := match b_rest p, rev (skipn (length (ordinary pats)) (positionals vals)) with
    | Some a, _ => Ok (put_var (skipn 1 (a_val a)) (skipn (length (ordinary pats)) (positionals vals)) s)
    | None, last :: _ => Err (EErr EBindExcess (node_site last))
    | None, [] => Ok s
    end in
  let s := set_defs (assign (flat_map (kw_value (inserts (lpairs pats) []) (inserts (rpairs vals) []))
                               (map fst (inserts (lpairs pats) []))) (x_defs s)) s in
  match b_rest_kw p with
  | Some a =>
      let s := if 2 <=? length (left_over pats vals) then order_matters s else s in
      Ok (put_var (skipn 2 (a_val a)) kwrest s)
  | None =>
      match kwrest with
      | [] => Ok s
      | n :: _ => Err (EErr EBindExcessKeyword (node_site n))
      end
  end.
Proof.
  intros [A [B [C [D F]]]] P G. unfold bind_rest. rewrite leftover_eq, A, B, C.
  destruct (match b_rest p with Some a => _ | None => _ end) as [s1| | | |]; try reflexivity. cbn [bind].
  change (e_order (with_order o' E)) with o'.
  rewrite (G (S seed)) by lia. unfold taking at 1. rewrite chosen_else by lia.
  rewrite bind_named_eq by (apply inserts_nodup; constructor). fold (left_over pats vals). cbv zeta.
  rewrite (G seed) by lia. unfold taking. rewrite chosen_at.
  rewrite (proj2 (left_over_entries pats vals kwrest P)). reflexivity.
Qed.

(** ** Bindings *)

Definition attained (p v : node) (l : assignments) : Prop :=
  forall s, exists o s1, perm o /\ x_defs s1 = assign l (x_defs s) /\ same_effects s s1 /\
    seed_of s <= seed_of s1 /\
    forall o', perm o' -> agree (seed_of s) (seed_of s1) o o' -> bind_node (with_order o' E) p v s = Ok s1.
Definition attainable (p : node) : Prop := forall v l, binds p v l -> attained p v l.
Definition args_attained (assigned : site) (pats vals : list node) (l : assignments) : Prop :=
  forall s, exists o s1, perm o /\ x_defs s1 = assign l (x_defs s) /\ same_effects s s1 /\
    seed_of s <= seed_of s1 /\
    forall o', perm o' -> agree (seed_of s) (seed_of s1) o o' ->
      bind_list (with_order o' E) assigned pats vals s = Ok s1.

Lemma positional_attained assigned pats : Forall attainable pats -> forall p s l,
  binds_each (ordinary pats) (firstn (length (ordinary pats)) (positionals (b_rhs p))) l ->
  length (opt_name 1 (b_rest p) ++ rest_names pats) <= 1 ->
  length (opt_name 2 (b_rest_kw p) ++ kwrest_names pats) <= 1 ->
  exists o p1 s1, perm o /\ x_defs s1 = assign l (x_defs s) /\ same_effects s s1 /\
    seed_of s <= seed_of s1 /\
    forall o', perm o' -> agree (seed_of s) (seed_of s1) o o' ->
      bind_positional (bind_node (with_order o' E)) assigned pats p s = Ok (p1, s1).
Proof.
  induction 1 as [|n pats Hn _ IH]; intros p s l B L1 L2.
  { cbn in B. inversion B; subst. exists (fun _ l => l), p, s. split; [apply perm_id|].
    split; [reflexivity|]. split; [apply same_effects_refl|]. split; [lia|]. reflexivity. }
  rewrite ordinary_cons in B.
  unfold rest_names, kwrest_names in L1, L2. cbn [flat_map] in L1, L2.
  destruct (param_kinds n) as [[k [v [st [w ->]]]] | [NA [K | [K | K]]]].
  - destruct (IH (Progress (b_rhs p) (b_rhs_named p) (named_insert k v (b_lhs_named p)) (b_rest p) (b_rest_kw p)) s l
      B L1 L2) as [o [p1 [s1 H]]]. exists o, p1, s1. exact H.
  - destruct K as [a [K1 [K2 K3]]]. rewrite NA, K2, K3 in B. cbn [negb is_some andb] in B.
    rewrite K2 in L2. rewrite K3 in L1.
    assert (R : b_rest_kw p = None).
    { destruct (b_rest_kw p); [cbn in L2; lia|reflexivity]. }
    destruct (IH (Progress (b_rhs p) (b_rhs_named p) (b_lhs_named p) (b_rest p) (Some a)) s l B L1)
      as [o [p1 [s1 [H1 [H2 [H3 [H4 H]]]]]]]; [rewrite R in L2; exact L2|].
    exists o, p1, s1. repeat (split; [assumption|]). intros o' P' A'.
    rewrite bind_positional_step, K1, R. destruct n; try discriminate; apply H; assumption.
  - destruct K as [a [K1 [K0 [K2 K3]]]]. rewrite NA, K2, K3 in B. cbn [negb is_some andb] in B.
    rewrite K2 in L1. rewrite K3 in L2.
    assert (R : b_rest p = None).
    { destruct (b_rest p); [cbn in L1; lia|reflexivity]. }
    destruct (IH (Progress (b_rhs p) (b_rhs_named p) (b_lhs_named p) (Some a) (b_rest_kw p)) s l B)
      as [o [p1 [s1 [H1 [H2 [H3 [H4 H]]]]]]]; [rewrite R in L1; exact L1|exact L2|].
    exists o, p1, s1. repeat (split; [assumption|]). intros o' P' A'.
    rewrite bind_positional_step, K1, K0, R. destruct n; try discriminate; apply H; assumption.
  - destruct K as [K1 [K0 [K2 K3]]]. rewrite NA, K2, K3 in B. cbn [negb is_some andb] in B.
    rewrite K2 in L1. rewrite K3 in L2.
    pose proof (next_positional_eq (b_rhs p) (b_rhs_named p)) as NP. cbn [length] in B.
    destruct (next_positional (b_rhs p) (b_rhs_named p)) as [[[n1 rhs] named]|] eqn:NQ.
    2: { rewrite NP in B. cbn in B. inversion B. }
    destruct NP as [P1 P2]. rewrite P1 in B. cbn [firstn] in B. inversion B as [|? ? ? ? l0 l1 Bh Bt]; subst.
    destruct (Hn n1 l0 Bh s) as [o1 [s1 [A1 [A2 [A3 [A4 A]]]]]].
    destruct (IH (Progress rhs named (b_lhs_named p) (b_rest p) (b_rest_kw p)) s1 l1 Bt L1 L2)
      as [o2 [p2 [s2 [B1 [B2 [B3 [B4 BB]]]]]]].
    exists (joined (seed_of s1) o1 o2), p2, s2. split; [apply perm_joined; assumption|].
    split; [rewrite assign_app, B2, A2; reflexivity|]. split; [eapply same_effects_trans; eauto|].
    split; [lia|]. intros o' P' A'.
    rewrite bind_positional_step, K1, K0, NQ.
    rewrite A; [|exact P'|eapply agree_left; [|exact A']; lia]. cbn [bind].
    rewrite BB; [|exact P'|eapply agree_right; [|exact A']; lia]. destruct n; try discriminate; reflexivity.
Qed.

(** The parameters of the first step. *)
Lemma progress_of assigned pats vals o s p1 s1 : perm o ->
  bind_positional (bind_node (with_order o E)) assigned pats (Progress vals [] [] None None) s = Ok (p1, s1) ->
  pats_of pats vals p1.
Proof.
  intros P H.
  assert (F : Forall (bind_spec (bind_node (with_order o E))) pats)
    by (apply Forall_forall; intros q _; apply bind_node_spec, P).
  apply (bind_positional_ok _ assigned pats F) in H as [l [_ [_ [_ [D [G [I [J K]]]]]]]].
  repeat split; assumption.
Qed.

Lemma rest_one s p (rest : list node) l2 names : opt_name 1 (b_rest p) = names -> one_rest names rest l2 ->
  match b_rest p, rev rest with
  | Some a, _ => Ok (put_var (skipn 1 (a_val a)) rest s)
  | None, last :: _ => Err (EErr EBindExcess (node_site last))
  | None, [] => Ok s
  end = Ok (set_defs (assign l2 (x_defs s)) s).
Proof.
  intros D O. apply opt_name_cases in D as [[R Q]|[a [R Q]]]; rewrite R; subst; inversion O; subst.
  - cbn. destruct s; reflexivity.
  - reflexivity.
Qed.

Lemma list_attained assigned pats vals l : Forall attainable pats -> binds_list pats vals l ->
  args_attained assigned pats vals l.
Proof.
  intros FA H s. inversion H as [? ? l1 l2 l3 l4 kwrest B1 O2 P3 P4 O4]; subst.
  assert (L1 : length (rest_names pats) <= 1) by (inversion O2; cbn; lia).
  assert (L2 : length (kwrest_names pats) <= 1) by (inversion O4; cbn; lia).
  destruct (positional_attained assigned pats FA (Progress vals [] [] None None) (new_maps 2 s) l1 B1 L1 L2)
    as [o [p1 [s1 [A1 [A2 [A3 [A4 A]]]]]]].
  change (seed_of (new_maps 2 s)) with (2 + seed_of s) in *.
  pose proof (progress_of assigned pats vals o (new_maps 2 s) p1 s1 A1 (A o A1 (agree_refl _ _ _))) as PO.
  set (lk := flat_map (kw_value (inserts (lpairs pats) []) (inserts (rpairs vals) [])) (map fst (inserts (lpairs pats) []))).
  assert (PK : Permutation lk l3) by (rewrite P3; apply kw_perm; reflexivity).
  assert (NK : NoDup (map fst lk)).
  { eapply Permutation_NoDup; [apply Permutation_map; symmetry; etransitivity; [exact PK|exact P3]|].
    rewrite map_map. rewrite (map_ext_in _ key_of); [apply final_nodup|].
    intros n I. apply in_final in I as [k [v [st [w [-> _]]]]]. reflexivity. }
  assert (S : exists s2, x_defs s2 = assign (l1 ++ l2 ++ l3 ++ l4) (x_defs s) /\ same_effects s s2 /\
    seed_of s2 = seed_of s1 /\
    forall o', perm o' -> agree (seed_of s) (2 + seed_of s) (taking (seed_of s) pats vals kwrest) o' ->
      bind_rest (with_order o' E) (seed_of s) p1 s1 = Ok s2).
  { pose proof PO as [_ [_ [_ [D F]]]].
    assert (X : forall o', agree (seed_of s) (2 + seed_of s) (taking (seed_of s) pats vals kwrest) o' ->
      bind_rest (with_order o' E) (seed_of s) p1 s1 =
      let s := set_defs (assign (l2 ++ lk) (x_defs s1)) s1 in
      match b_rest_kw p1 with
      | Some a =>
          let s := if 2 <=? length (left_over pats vals) then order_matters s else s in
          Ok (put_var (skipn 2 (a_val a)) kwrest s)
      | None =>
          match kwrest with
          | [] => Ok s
          | n :: _ => Err (EErr EBindExcessKeyword (node_site n))
          end
      end).
    { intros o' G. rewrite (bind_rest_taking pats vals _ p1 s1 kwrest o' PO P4 G).
      rewrite (rest_one s1 p1 _ l2 _ D O2). cbn [bind]. fold lk. rewrite assign_app. reflexivity. }
    assert (EQ : forall d, assign (l2 ++ lk) d = assign (l2 ++ l3) d).
    { intros d. rewrite !assign_app. apply assign_perm; assumption. }
    apply opt_name_cases in F as [[R Q]|[a [R Q]]]; rewrite Q in O4; inversion O4; subst;
      eexists; (split; [|split; [|split; [|intros o' P' G; rewrite (X o' G), R; reflexivity]]]).
    - cbn [x_defs set_defs]. rewrite EQ, app_nil_r, !assign_app, A2. reflexivity.
    - eapply same_effects_trans; [apply same_new_maps|]. eapply same_effects_trans; [exact A3|]. repeat split.
    - reflexivity.
    - cbv zeta. rewrite !assign_app. cbn [assign fold_left].
      assert (Y : forall t, x_defs (put_var (skipn 2 (a_val a)) kwrest t) = put (skipn 2 (a_val a)) (variable kwrest) (x_defs t)) by reflexivity.
      rewrite Y. f_equal. transitivity (assign lk (assign l2 (x_defs s1))); [destruct (2 <=? _); reflexivity|].
      rewrite <- assign_app, EQ, assign_app, A2. reflexivity.
    - eapply same_effects_trans; [apply same_new_maps|]. eapply same_effects_trans; [exact A3|].
      destruct (2 <=? _); repeat split.
    - destruct (2 <=? _); reflexivity. }
  destruct S as [s2 [S1 [S2 [S3 SS]]]].
  exists (joined (2 + seed_of s) (taking (seed_of s) pats vals kwrest) o), s2.
  split; [apply perm_joined; [apply perm_taking, P4|exact A1]|]. split; [exact S1|]. split; [exact S2|].
  split; [lia|]. intros o' P' A'. unfold bind_list, bind_list_with.
  rewrite A; [|exact P'|eapply agree_right; [|rewrite <- S3; exact A']; lia]. cbn [bind].
  apply SS; [exact P'|]. eapply agree_left; [|exact A']. lia.
Qed.

Lemma attained_now p v l : (forall s o, bind_node (with_order o E) p v s = Ok (set_defs (assign l (x_defs s)) s)) ->
  attained p v l.
Proof.
  intros H s. exists (fun _ l => l), (set_defs (assign l (x_defs s)) s). split; [apply perm_id|].
  split; [reflexivity|]. split; [repeat split|]. split; [reflexivity|]. intros o' _ _. apply H.
Qed.

Lemma node_attainable p : attainable p.
Proof.
  induction p as [a|a|a|a|pats st ew es w IH|k p st w IH] using node_ind'; intros v l B; inversion B; subst.
  - apply attained_now. reflexivity.
  - apply attained_now. intros s o. cbn. rewrite (proj2 (beq_eq _ _) H0). destruct s; reflexivity.
  - apply attained_now. intros s o. cbn. rewrite (proj2 (beq_eq _ _) H0). destruct s; reflexivity.
  - apply attained_now. intros s o. cbn. rewrite (proj2 (beq_eq _ _) H0). destruct s; reflexivity.
  - apply attained_now. intros s o. cbn. rewrite (proj2 (beq_eq _ _) H0). destruct s; reflexivity.
  - apply attained_now. intros s o. cbn. rewrite (proj2 (beq_eq _ _) H0). destruct s; reflexivity.
  - exact (list_attained _ pats vals l IH ltac:(eassumption)).
  - intros s. match goal with X : binds p _ l |- _ => destruct (IH _ _ X s) as [o [s1 [A1 [A2 [A3 [A4 A]]]]]] end.
    exists o, s1. repeat (split; [assumption|]). intros o' P' A'. cbn [bind_node]. rewrite beq_refl. apply A; assumption.
Qed.
Lemma args_attainable assigned pats vals l : binds_list pats vals l -> args_attained assigned pats vals l.
Proof. apply list_attained, Forall_forall. intros p _. apply node_attainable. Qed.

(** ** Failures *)

Definition blamed {A} (m : env -> state -> res A) (k : ekind) (st : site) : Prop :=
  forall s, exists o, perm o /\
    forall o', perm o' -> agree_from (seed_of s) o o' -> m (with_order o' E) s = Err (EErr k st).

Lemma blamed_now {A} (m : env -> state -> res A) k st :
  (forall s o, m (with_order o E) s = Err (EErr k st)) -> blamed m k st.
Proof. intros H s. exists (fun _ l => l). split; [apply perm_id|]. intros o' _ _. apply H. Qed.

Definition blamed_at (assigned : site) (q : node) (vals : list node) (rests kwrests : list bytes) k st : Prop :=
  forall p after, positionals (b_rhs p) = vals -> opt_name 1 (b_rest p) = rests -> opt_name 2 (b_rest_kw p) = kwrests ->
    blamed (fun E s => bind_positional (bind_node E) assigned (q :: after) p s) k st.

Lemma value_other (v : node) key : (forall v' st' w', v <> Attr key v' st' w') ->
  forall p o s st w, bind_node (with_order o E) (Attr key p st w) v s = Err (EErr EBindPattern (node_site v)).
Proof.
  intros H p o s st w. cbn [bind_node]. destruct v as [| | | | |k v st' w']; try reflexivity.
  destruct (beq key k) eqn:B; [|reflexivity]. apply beq_eq in B. subst. exfalso. eapply H. reflexivity.
Qed.

Lemma failures :
  (forall p v k st, mismatch p v k st -> blamed (fun E s => bind_node E p v s) k st) /\
  (forall assigned pats vals k st, mismatch_args assigned pats vals k st ->
     blamed (fun E s => bind_list E assigned pats vals s) k st) /\
  (forall assigned q vals rests kwrests k st, mismatch_at assigned q vals rests kwrests k st ->
     blamed_at assigned q vals rests kwrests k st).
Proof.
  apply mismatch_mutind.
  - intros pats st ew es w v H. apply blamed_now. intros s o. destruct v; try discriminate; reflexivity.
  - intros pats st ew es w vals st' ew' es' w' k bad _ H. exact H.
  - intros key p st w v H. apply blamed_now. intros s o. apply value_other, H.
  - intros key p st w v st' w' k bad _ H s. destruct (H s) as [o [P A]]. exists o. split; [exact P|].
    intros o' P' A'. cbn [bind_node]. rewrite beq_refl. apply A; assumption.
  - intros a v H. apply blamed_now. intros s o. cbn [bind_node]. destruct v as [x|x|x|x| |]; try reflexivity.
    destruct (beq (a_val a) (a_val x)) eqn:B; [|reflexivity]. apply beq_eq in B. exfalso. eapply H; eauto.
  - intros a v H. apply blamed_now. intros s o. cbn [bind_node]. destruct v as [x|x|x|x| |]; try reflexivity;
      (destruct (beq (a_val a) (a_val x)) eqn:B; [|reflexivity]); apply beq_eq in B; exfalso; eapply H; eauto.
  - intros a v H. apply blamed_now. intros s o. cbn [bind_node]. destruct v as [x|x|x|x| |]; try reflexivity;
      (destruct (beq (a_val a) (a_val x)) eqn:B; [|reflexivity]); apply beq_eq in B; exfalso; eapply H; eauto.
  - intros st pats vals before p after l k bad -> B L1 L2 M H s.
    assert (FA : Forall attainable before) by (apply Forall_forall; intros q _; apply node_attainable).
    destruct (positional_attained st before FA (Progress vals [] [] None None) (new_maps 2 s) l B L1 L2)
      as [o1 [p1 [s1 [A1 [A2 [A3 [A4 A]]]]]]].
    change (seed_of (new_maps 2 s)) with (2 + seed_of s) in *.
    pose proof (progress_of st before vals o1 (new_maps 2 s) p1 s1 A1 (A o1 A1 (agree_refl _ _ _))) as PO.
    destruct PO as [D [_ [_ [I J]]]].
    destruct (H p1 after D I J s1) as [o2 [B1 BB]].
    exists (joined (seed_of s1) o1 o2). split; [apply perm_joined; assumption|]. intros o' P' A'.
    unfold bind_list, bind_list_with. rewrite bind_positional_app.
    rewrite A; [|exact P'|apply agree_from_left in A'; eapply agree_weak; [| |exact A']; lia]. cbn [bind].
    rewrite BB; [reflexivity|exact P'|]. eapply agree_from_right; [|exact A']. lia.
  - intros st pats vals l v vs B L2 R Q s.
    assert (FA : Forall attainable pats) by (apply Forall_forall; intros q _; apply node_attainable).
    assert (L1 : length (rest_names pats) <= 1) by (rewrite R; cbn; lia).
    destruct (positional_attained st pats FA (Progress vals [] [] None None) (new_maps 2 s) l B L1 L2)
      as [o1 [p1 [s1 [A1 [A2 [A3 [A4 A]]]]]]].
    change (seed_of (new_maps 2 s)) with (2 + seed_of s) in *.
    pose proof (progress_of st pats vals o1 (new_maps 2 s) p1 s1 A1 (A o1 A1 (agree_refl _ _ _))) as PO.
    pose proof PO as [_ [_ [_ [D F]]]].
    exists (joined (2 + seed_of s) (taking (seed_of s) pats vals (surplus_keywords pats vals)) o1).
    split; [apply perm_joined; [apply perm_taking; reflexivity|exact A1]|]. intros o' P' A'.
    unfold bind_list, bind_list_with.
    rewrite A; [|exact P'|apply agree_from_right in A'; [|lia]; intros i ll X _; apply A', X]. cbn [bind].
    rewrite (bind_rest_taking pats vals _ p1 s1 (surplus_keywords pats vals) o' PO); [|reflexivity|].
    2: { apply agree_from_left in A'. exact A'. }
    rewrite R in D. apply opt_name_cases in D as [[R1 _]|[a [_ Z]]]; [|discriminate].
    rewrite R1, Q, rev_app_distr. reflexivity.
  - intros st pats vals l l2 v B O2 R I s.
    assert (FA : Forall attainable pats) by (apply Forall_forall; intros q _; apply node_attainable).
    assert (L1 : length (rest_names pats) <= 1) by (inversion O2; cbn; lia).
    assert (L2 : length (kwrest_names pats) <= 1) by (rewrite R; cbn; lia).
    apply in_split in I as [b1 [b2 I]].
    assert (PK : Permutation (v :: b1 ++ b2) (surplus_keywords pats vals)) by (rewrite I; apply Permutation_middle).
    destruct (positional_attained st pats FA (Progress vals [] [] None None) (new_maps 2 s) l B L1 L2)
      as [o1 [p1 [s1 [A1 [A2 [A3 [A4 A]]]]]]].
    change (seed_of (new_maps 2 s)) with (2 + seed_of s) in *.
    pose proof (progress_of st pats vals o1 (new_maps 2 s) p1 s1 A1 (A o1 A1 (agree_refl _ _ _))) as PO.
    pose proof PO as [_ [_ [_ [D F]]]].
    exists (joined (2 + seed_of s) (taking (seed_of s) pats vals (v :: b1 ++ b2)) o1).
    split; [apply perm_joined; [apply perm_taking, PK|exact A1]|]. intros o' P' A'.
    unfold bind_list, bind_list_with.
    rewrite A; [|exact P'|apply agree_from_right in A'; [|lia]; intros i ll X _; apply A', X]. cbn [bind].
    rewrite (bind_rest_taking pats vals _ p1 s1 (v :: b1 ++ b2) o' PO PK).
    2: { apply agree_from_left in A'. exact A'. }
    rewrite (rest_one s1 p1 _ l2 _ D O2). cbn [bind].
    rewrite R in F. apply opt_name_cases in F as [[R1 _]|[a [_ Z]]]; [|discriminate].
    rewrite R1. reflexivity.
  - intros st q vals rests kwrests R N p after _ Q1 _. apply blamed_now. intros s o.
    rewrite bind_positional_step.
    destruct (param_kinds q) as [[k [v [st' [w ->]]]] | [NA [K | [K | K]]]].
    + contradiction R. reflexivity.
    + destruct K as [a [_ [_ K]]]. contradiction.
    + destruct K as [a [K1 [K2 _]]]. rewrite K1, K2. destruct (b_rest p) as [x|]; [|subst; contradiction N; reflexivity].
      destruct q; try discriminate; reflexivity.
    + destruct K as [_ [_ [K _]]]. contradiction.
  - intros st q vals rests kwrests R N p after _ _ Q1. apply blamed_now. intros s o.
    rewrite bind_positional_step.
    destruct (param_kinds q) as [[k [v [st' [w ->]]]] | [NA [K | [K | K]]]].
    + contradiction R. reflexivity.
    + destruct K as [a [K1 _]]. rewrite K1. destruct (b_rest_kw p) as [x|]; [|subst; contradiction N; reflexivity].
      destruct q; try discriminate; reflexivity.
    + destruct K as [a [_ [_ [_ K]]]]. contradiction.
    + destruct K as [_ [_ [_ K]]]. contradiction.
  - intros st q rests kwrests [NA [O1 O2]] p after Q _ _. apply blamed_now. intros s o.
    rewrite bind_positional_step. pose proof (next_positional_eq (b_rhs p) (b_rhs_named p)) as NP.
    destruct (param_kinds q) as [[k [v [st' [w ->]]]] | [_ [K | [K | K]]]]; try discriminate.
    + destruct K as [a [_ [K _]]]. congruence.
    + destruct K as [a [_ [_ [K _]]]]. congruence.
    + destruct K as [K1 [K0 _]]. rewrite K1, K0.
      destruct (next_positional (b_rhs p) (b_rhs_named p)) as [[[n1 rhs] named]|].
      * destruct NP as [P1 _]. congruence.
      * destruct q; try discriminate; reflexivity.
  - intros st q v vals rests kwrests k bad [NA [O1 O2]] _ H p after Q _ _ s.
    destruct (H s) as [o [P A]]. exists o. split; [exact P|]. intros o' P' A'.
    rewrite bind_positional_step. pose proof (next_positional_eq (b_rhs p) (b_rhs_named p)) as NP.
    destruct (param_kinds q) as [[kk [vv [st' [w ->]]]] | [_ [K | [K | K]]]]; try discriminate.
    + destruct K as [a [_ [K _]]]. congruence.
    + destruct K as [a [_ [_ [K _]]]]. congruence.
    + destruct K as [K1 [K0 _]]. rewrite K1, K0.
      destruct (next_positional (b_rhs p) (b_rhs_named p)) as [[[n1 rhs] named]|].
      * destruct NP as [P1 _]. rewrite Q in P1. inversion P1; subst. rewrite A by assumption.
        destruct q; try discriminate; reflexivity.
      * congruence.
Qed.
End WithEnv.
