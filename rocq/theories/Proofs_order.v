(** * Proofs: order of hash maps, and outcomes that are alike *)

From Coq Require Import String List Ascii Bool Arith NArith ZArith Lia Permutation.
From Verif Require Import Text Res Ast Args Env Scope State Bind Data Paths Sorting Parser Numbers Expander
  Spec_args Spec_expand Spec_builtin Spec_bind Spec_control Spec_scope Spec_order Proofs_text Proofs_ast Proofs_run Proofs_eval Proofs_args Proofs_bind
  Proofs_control Proofs_scope Proofs_more Proofs_sim.
From Verif Require Import Args Expander.
Import ListNotations.

Lemma with_own_order E : with_order (e_order E) E = E.
Proof. destruct E. reflexivity. Qed.

(** ** The count of disputed bindings *)

Section Count.
Variable E : env.
Hypothesis ORDER : forall seed l, Permutation (e_order E seed l) l.

Definition counts (p : node) : Prop := forall v s s1, bind_node E p v s = Ok s1 ->
  g_ordered (x_world s) <= g_ordered (x_world s1) /\
  (g_ordered (x_world s1) = g_ordered (x_world s) <-> undisputed_pattern p v).

Lemma positional_counts st pats : Forall counts pats -> forall p s p' s1,
  bind_positional (bind_node E) st pats p s = Ok (p', s1) ->
  g_ordered (x_world s) <= g_ordered (x_world s1) /\
  (g_ordered (x_world s1) = g_ordered (x_world s) <->
   forall i q v, nth_error (ordinary pats) i = Some q -> nth_error (positionals (b_rhs p)) i = Some v ->
     undisputed_pattern q v).
Proof.
  induction 1 as [|n pats Hn _ IH]; intros p s p' s1 H.
  { cbn in H. inversion H; subst. split; [lia|]. split; [|reflexivity]. intros _ [|i]; discriminate. }
  cbn [bind_positional] in H. rewrite ordinary_cons.
  destruct (param_kinds n) as [[k [v [st' [w ->]]]] | [NA [K | [K | K]]]].
  - apply IH in H. exact H.
  - destruct K as [a [R [K1 K2]]]. rewrite NA, K1, K2. cbn [is_some negb andb].
    assert (H' : match b_rest_kw p with
              | Some _ => Err (EErr EBindMultiRest (node_site n))
              | None => bind_positional (bind_node E) st pats (Progress (b_rhs p) (b_rhs_named p) (b_lhs_named p) (b_rest p) (Some a)) s
              end = Ok (p', s1)) by (destruct n; try discriminate; rewrite R in H; exact H).
    destruct (b_rest_kw p); [discriminate|]. apply IH in H'. exact H'.
  - destruct K as [a [R0 [R [K1 K2]]]]. rewrite NA, K1, K2. cbn [is_some negb andb].
    assert (H' : match b_rest p with
              | Some _ => Err (EErr EBindMultiRest (node_site n))
              | None => bind_positional (bind_node E) st pats (Progress (b_rhs p) (b_rhs_named p) (b_lhs_named p) (Some a) (b_rest_kw p)) s
              end = Ok (p', s1)) by (destruct n; try discriminate; rewrite R0, R in H; exact H).
    destruct (b_rest p); [discriminate|]. apply IH in H'. exact H'.
  - destruct K as [R0 [R [K1 K2]]]. rewrite NA, K1, K2. cbn [is_some negb andb].
    assert (H' : match next_positional (b_rhs p) (b_rhs_named p) with
              | None => Err (EErr EBindTooFew st)
              | Some (n1, rhs, named) =>
                  let* s := bind_node E n n1 s in
                  bind_positional (bind_node E) st pats (Progress rhs named (b_lhs_named p) (b_rest p) (b_rest_kw p)) s
              end = Ok (p', s1)) by (destruct n; try discriminate; rewrite R0, R in H; exact H).
    clear H. pose proof (next_positional_eq (b_rhs p) (b_rhs_named p)) as NP.
    destruct (next_positional (b_rhs p) (b_rhs_named p)) as [[[n1 rhs] named]|]; [|discriminate].
    destruct NP as [NP _].
    destruct (bind_node E n n1 s) as [s2| | | |] eqn:B; cbn [bind] in H'; try discriminate.
    destruct (Hn _ _ _ B) as [M1 C1]. apply IH in H' as [M2 C2]. cbn [b_rhs] in C2. rewrite NP. split; [lia|].
    split.
    + intros Q. assert (Q1 : g_ordered (x_world s2) = g_ordered (x_world s)) by lia.
      assert (Q2 : g_ordered (x_world s1) = g_ordered (x_world s2)) by lia.
      intros [|i] q v I J; cbn in I, J; [inversion I; inversion J; subst; apply C1, Q1|].
      apply (proj1 C2 Q2 i); assumption.
    + intros A. assert (Q1 : g_ordered (x_world s2) = g_ordered (x_world s)) by (apply C1, (A 0); reflexivity).
      rewrite <- Q1. apply C2. intros i q v I J. apply (A (S i)); assumption.
Qed.

Lemma rest_counts pats vals seed p s s1 : pats_of pats vals p -> bind_rest E seed p s = Ok s1 ->
  g_ordered (x_world s) <= g_ordered (x_world s1) /\
  (g_ordered (x_world s1) = g_ordered (x_world s) <->
   kwrest_names pats = [] \/ length (surplus_keywords pats vals) <= 1).
Proof.
  intros [A [B [C [D F]]]] H. unfold bind_rest in H. rewrite leftover_eq, A, B, C in H.
  set (rest := skipn (length (ordinary pats)) (positionals vals)) in *.
  set (lhs := inserts (lpairs pats) []) in *. set (rhs := inserts (rpairs vals) []) in *.
  assert (N1 : NoDup (map fst lhs)) by (apply inserts_nodup; constructor).
  set (keys := e_order E (S seed) (map fst lhs)) in *.
  assert (PK : Permutation keys (map fst lhs)) by apply ORDER.
  assert (NK : NoDup keys) by (eapply Permutation_NoDup; [symmetry; exact PK|exact N1]).
  assert (H1 : exists s0, g_ordered (x_world s0) = g_ordered (x_world s) /\
    (let '(rhs_named, s) := bind_named keys lhs rhs s0 in
     let keys := e_order E seed (map fst rhs_named) in
     match b_rest_kw p with
     | Some a =>
         let s := if 2 <=? length rhs_named then order_matters s else s in
         Ok (put_var (skipn 2 (a_val a)) (entries keys rhs_named) s)
     | None =>
         match entries keys rhs_named with
         | [] => Ok s
         | n :: _ => Err (EErr EBindExcessKeyword (node_site n))
         end
     end) = Ok s1).
  { destruct (b_rest p); [eexists; split; [|exact H]; reflexivity|].
    destruct (rev rest); cbn [bind] in H; [|discriminate]. exists s. auto. }
  clear H. destruct H1 as [s0 [Q0 H]]. rewrite (bind_named_eq lhs keys NK) in H. cbv zeta in H.
  set (left := List.filter _ rhs) in H.
  assert (L : length left = length (surplus_keywords pats vals)).
  { rewrite <- (map_length snd). apply Permutation_length. unfold left, rhs. apply surplus_perm. exact PK. }
  clearbody left. apply opt_name_cases in F as [[R Q]|[a [R Q]]]; rewrite R in H; rewrite Q.
  - destruct (entries _ _); [|discriminate]. inversion H; subst. cbn. split; [lia|]. split; auto.
  - rewrite L in H. destruct (2 <=? length (surplus_keywords pats vals)) eqn:G; inversion H; subst; cbn; (split; [lia|]).
    + apply Nat.leb_le in G. split; [lia|]. intros [X|X]; [discriminate|lia].
    + apply Nat.leb_gt in G. split; [intros _; right; lia|intros _; exact Q0].
Qed.

Lemma list_counts st pats : Forall counts pats -> forall vals s s1, bind_list E st pats vals s = Ok s1 ->
  g_ordered (x_world s) <= g_ordered (x_world s1) /\
  (g_ordered (x_world s1) = g_ordered (x_world s) <-> undisputed pats vals).
Proof.
  intros F vals s s1 H. unfold bind_list, bind_list_with in H.
  destruct (bind_positional (bind_node E) st pats (Progress vals [] [] None None) (new_maps 2 s))
    as [[p s0]| | | |] eqn:BP; try discriminate. cbn [bind] in H.
  destruct (positional_counts st pats F _ _ _ _ BP) as [M1 C1]. cbn [b_rhs new_maps set_world x_world g_ordered] in M1, C1.
  assert (FA : Forall (bind_spec (bind_node E)) pats) by (apply Forall_forall; intros q _; apply bind_node_spec, ORDER).
  apply (bind_positional_ok _ st pats FA) in BP as [l1 [_ [_ [_ [D [G [I [J K]]]]]]]].
  cbn [b_rhs b_rhs_named b_lhs_named b_rest b_rest_kw opt_name app] in *.
  assert (P : pats_of pats vals p) by (repeat split; assumption).
  destruct (rest_counts pats vals _ p s0 s1 P H) as [M2 C2].
  split; [lia|]. split.
  - intros Q. assert (Q1 : g_ordered (x_world s0) = g_ordered (x_world s)) by lia.
    assert (Q2 : g_ordered (x_world s1) = g_ordered (x_world s0)) by lia.
    intros qs ws MT. inversion MT as [|? ? i q v ps' vs' ? ? IQ IV O MT']; subst; [apply C2, Q2|].
    apply (proj1 C1 Q1 i q v IQ IV ps' vs' O). exact MT'.
  - intros U. assert (Q1 : g_ordered (x_world s0) = g_ordered (x_world s)).
    { apply C1. intros i q v IQ IV ps' vs' O qs ws MT. apply U. eapply meets_inside; eauto. }
    rewrite <- Q1. apply C2, U, meets_here.
Qed.

Lemma node_counts p : counts p.
Proof.
  assert (T : forall (s : state) p v, (forall ps vs, ~ opens p v ps vs) -> g_ordered (x_world s) <= g_ordered (x_world s) /\
    (g_ordered (x_world s) = g_ordered (x_world s) <-> undisputed_pattern p v)).
  { intros s q v N. split; [lia|]. split; [|reflexivity]. intros _ ps vs O. destruct (N _ _ O). }
  induction p as [a|a|a|a|pats st ew es w IH|k p st w IH] using node_ind'; intros v s s1 H; cbn [bind_node] in H.
  - inversion H; subst. apply (T s). intros ps vs O. inversion O.
  - destruct v; try discriminate. destruct (beq _ _); inversion H; subst. apply T. intros ps vs O. inversion O.
  - destruct v; try discriminate; (destruct (beq _ _); inversion H; subst; apply T; intros ps vs O; inversion O).
  - destruct v; try discriminate; (destruct (beq _ _); inversion H; subst; apply T; intros ps vs O; inversion O).
  - destruct v; try discriminate. destruct (list_counts _ pats IH _ _ _ H) as [M C]. split; [exact M|]. rewrite C.
    split.
    + intros U ps vs O. inversion O; subst. exact U.
    + intros U. apply U. constructor.
  - destruct v as [| | | | |k' v st' w']; try discriminate. destruct (beq k k') eqn:K; [|discriminate]. apply beq_eq in K. subst k'.
    destruct (IH _ _ _ H) as [M C]. split; [exact M|]. rewrite C. split.
    + intros U ps vs O. inversion O; subst. apply U. assumption.
    + intros U ps vs O. apply U. constructor. exact O.
Qed.
Lemma bind_counts st ps vs s s1 : bind_list E st ps vs s = Ok s1 ->
  g_ordered (x_world s) <= g_ordered (x_world s1) /\
  (g_ordered (x_world s1) = g_ordered (x_world s) <-> undisputed ps vs).
Proof. apply list_counts. apply Forall_forall. intros p _. apply node_counts. Qed.
End Count.

(** ** Binding under two orders *)

Definition kind {A} (r : res A) : option ekind := match r with Err (EErr k _) => Some k | _ => None end.

Section Two.
Variable E : env.
Variable o : nat -> list bytes -> list bytes.
Hypothesis ORDER : forall seed l, Permutation (e_order E seed l) l.
Hypothesis ORDER' : forall seed l, Permutation (o seed l) l.
Let E' := with_order o E.

Definition same_kind (p : node) : Prop := forall v s s', kind (bind_node E p v s) = kind (bind_node E' p v s').

Lemma tame_kind {A} (r : res A) : tame r -> (kind r = None <-> exists x, r = Ok x).
Proof.
  intros [[x ->]|[[k st] ->]]; cbn; split; try congruence; eauto. intros [x H]. discriminate.
Qed.
Lemma positional_kinds st pats : Forall same_kind pats -> forall p s s',
  kind (bind_positional (bind_node E) st pats p s) = kind (bind_positional (bind_node E') st pats p s') /\
  forall q s1 q' s1', bind_positional (bind_node E) st pats p s = Ok (q, s1) ->
    bind_positional (bind_node E') st pats p s' = Ok (q', s1') -> q = q'.
Proof.
  induction 1 as [|n pats Hn _ IH]; intros p s s'; cbn [bind_positional].
  { split; [reflexivity|]. intros q s1 q' s1' H H'. congruence. }
  assert (ER : forall k st', kind (@Err (progress * state) (EErr k st')) = kind (@Err (progress * state) (EErr k st')) /\
    forall q s1 q' s1', @Err (progress * state) (EErr k st') = Ok (q, s1) -> @Err (progress * state) (EErr k st') = Ok (q', s1') -> q = q')
    by (intros k st'; split; [reflexivity|discriminate]).
  destruct n as [a|a|a|a|l|k v]; try (apply IH);
    (destruct (is_rest_kw _); [destruct (b_rest_kw p); [apply ER|apply IH]|]);
    (destruct (is_rest _); [destruct (b_rest p); [apply ER|apply IH]|]);
    (destruct (next_positional _ _) as [[[n1 rhs] named]|]; [|apply ER]);
    match goal with |- context [bind_node E ?q n1 s] =>
      specialize (Hn n1 s s'); destruct (bind_node_spec E ORDER q) as [_ [_ T]]; destruct (bind_node_spec E' ORDER' q) as [_ [_ T']];
      destruct (T n1 s) as [[s2 Q]|[[k1 st1] Q]]; destruct (T' n1 s') as [[s2' Q']|[[k2 st2] Q']];
      rewrite Q, Q' in Hn |- *; cbn [kind] in Hn; try discriminate Hn; cbn [bind]; [apply IH|];
      inversion Hn; subst; split; [reflexivity|discriminate] end.
Qed.
Lemma rest_kinds seed seed' p s s' : NoDup (map fst (b_lhs_named p)) ->
  kind (bind_rest E seed p s) = kind (bind_rest E' seed' p s').
Proof.
  intros NL. unfold bind_rest. rewrite leftover_eq.
  set (rest := positionals (b_rhs p)). set (rhs := inserts (rpairs (b_rhs p)) (b_rhs_named p)).
  assert (PK : Permutation (e_order E (S seed) (map fst (b_lhs_named p))) (map fst (b_lhs_named p))) by apply ORDER.
  assert (PK' : Permutation (o (S seed') (map fst (b_lhs_named p))) (map fst (b_lhs_named p))) by apply ORDER'.
  assert (NK := Permutation_NoDup (Permutation_sym PK) NL). assert (NK' := Permutation_NoDup (Permutation_sym PK') NL).
  change (e_order E') with o.
  assert (FQ : List.filter (fun '(j, _) => negb (existsb (fun k => beq k j) (e_order E (S seed) (map fst (b_lhs_named p))))) rhs
    = List.filter (fun '(j, _) => negb (existsb (fun k => beq k j) (o (S seed') (map fst (b_lhs_named p))))) rhs).
  { apply filter_ext. intros [j n]. f_equal. apply eq_iff_eq_true. rewrite !existsb_exists.
    split; intros [k [I Q]]; exists k; (split; [|exact Q]).
    - rewrite PK in I. rewrite PK'. exact I.
    - rewrite PK' in I. rewrite PK. exact I. }
  assert (G : forall s s', kind
      (let '(rhs_named, s) := bind_named (e_order E (S seed) (map fst (b_lhs_named p))) (b_lhs_named p) rhs s in
       let keys := e_order E seed (map fst rhs_named) in
       match b_rest_kw p with
       | Some a => let s := if 2 <=? length rhs_named then order_matters s else s in
                   Ok (put_var (skipn 2 (a_val a)) (entries keys rhs_named) s)
       | None => match entries keys rhs_named with [] => Ok s | n :: _ => Err (EErr EBindExcessKeyword (node_site n)) end
       end) = kind
      (let '(rhs_named, s) := bind_named (o (S seed') (map fst (b_lhs_named p))) (b_lhs_named p) rhs s' in
       let keys := o seed' (map fst rhs_named) in
       match b_rest_kw p with
       | Some a => let s := if 2 <=? length rhs_named then order_matters s else s in
                   Ok (put_var (skipn 2 (a_val a)) (entries keys rhs_named) s)
       | None => match entries keys rhs_named with [] => Ok s | n :: _ => Err (EErr EBindExcessKeyword (node_site n)) end
       end)).
  { intros s1 s1'. rewrite !bind_named_eq by assumption. rewrite <- FQ. set (left := List.filter _ rhs). clearbody left.
    cbv zeta. destruct (b_rest_kw p); [reflexivity|].
    assert (PE : Permutation (entries (e_order E seed (map fst left)) left) (entries (o seed' (map fst left)) left)).
    { unfold entries. apply Permutation_flat_map. rewrite ORDER, ORDER'. reflexivity. }
    destruct (entries (e_order E seed (map fst left)) left), (entries (o seed' (map fst left)) left); try reflexivity.
    - apply Permutation_nil in PE. discriminate.
    - apply Permutation_sym, Permutation_nil in PE. discriminate. }
  destruct (b_rest p); [apply G|]. destruct (rev rest); [apply G|reflexivity].
Qed.

Lemma list_kinds st pats : Forall same_kind pats -> forall vals s s',
  kind (bind_list E st pats vals s) = kind (bind_list E' st pats vals s').
Proof.
  intros F vals s s'. unfold bind_list, bind_list_with.
  assert (FA : Forall (bind_spec (bind_node E)) pats) by (apply Forall_forall; intros q _; apply bind_node_spec, ORDER).
  assert (FA' : Forall (bind_spec (bind_node E')) pats) by (apply Forall_forall; intros q _; apply bind_node_spec, ORDER').
  destruct (positional_kinds st pats F (Progress vals [] [] None None) (new_maps 2 s) (new_maps 2 s')) as [K P].
  destruct (bind_positional_tame _ st pats FA (Progress vals [] [] None None) (new_maps 2 s)) as [[[p s1] Q]|[[k1 st1] Q]];
  destruct (bind_positional_tame _ st pats FA' (Progress vals [] [] None None) (new_maps 2 s')) as [[[p' s1'] Q']|[[k2 st2] Q']];
    rewrite Q, Q' in K |- *; cbn [kind] in K; try discriminate K; cbn [bind]; [|exact K].
  rewrite <- (P _ _ _ _ Q Q').
  assert (N : NoDup (map fst (b_lhs_named p)) /\ NoDup (map fst (b_rhs_named p)))
    by (eapply positional_nodup; [| |exact Q]; constructor).
  destruct N as [N _]. apply rest_kinds, N.
Qed.

Lemma node_kinds p : same_kind p.
Proof.
  induction p as [a|a|a|a|pats st ew es w IH|k p st w IH] using node_ind'; intros v s s'; cbn [bind_node].
  - reflexivity.
  - destruct v; try reflexivity. destruct (beq _ _); reflexivity.
  - destruct v; try reflexivity; destruct (beq _ _); reflexivity.
  - destruct v; try reflexivity; destruct (beq _ _); reflexivity.
  - destruct v; try reflexivity. apply (list_kinds _ pats IH).
  - destruct v; try reflexivity. destruct (beq _ _); [apply IH|reflexivity].
Qed.
Lemma bind_kinds st ps vs s s' : kind (bind_list E st ps vs s) = kind (bind_list E' st ps vs s').
Proof. apply list_kinds. apply Forall_forall. intros p _. apply node_kinds. Qed.

Lemma bind_order_free st ps vs s : undisputed ps vs ->
  match bind_list E st ps vs s with
  | Ok s1 => bind_list E' st ps vs s = Ok s1
  | Err (EErr k _) => exists st', bind_list E' st ps vs s = Err (EErr k st')
  | _ => False
  end.
Proof.
  intros U. pose proof (bind_kinds st ps vs s s) as K.
  destruct (bind_list_cases E ORDER st ps vs s) as [[s1 [l [B [_ [_ X]]]]]|[N [[k st1] B]]];
  destruct (bind_list_cases E' ORDER' st ps vs s) as [[s1' [l' [B' [_ [_ X']]]]]|[N' [[k' st1'] B']]];
    rewrite B, B' in K |- *; cbn [kind] in K; try discriminate K.
  - pose proof (sim_bind_list E o False ORDER ORDER' ltac:(contradiction) st ps vs s s (sim_refl s)) as R.
    rewrite B in R. destruct R as [_ R]. destruct R as [s2 [Q2 S2]].
    { right. apply (bind_counts E ORDER st ps vs s s1 B), U. }
    fold E' in Q2. rewrite B' in Q2. inversion Q2; subst s2. f_equal.
    destruct S2 as [S2 S3]. destruct X as [X1 [X2 [X3 [X4 X5]]]], X' as [Y1 [Y2 [Y3 [Y4 Y5]]]].
    destruct s1 as [d1 v1 w1], s1' as [d1' v1' w1']. cbn in *. subst. f_equal.
    destruct w1, w1'. unfold undangled in S3. cbn in *. inversion S3. congruence.
  - inversion K; subst. eauto.
Qed.
End Two.

(** Without that condition, there are orders that tell the difference. *)
Lemma rev_nodup {A} (l : list A) : NoDup l -> rev l = l -> length l <= 1.
Proof.
  destruct l as [|x l]; [cbn; lia|]. intros N R. destruct (rev l) as [|y l'] eqn:RL.
  - assert (l = []) by (rewrite <- (rev_involutive l), RL; reflexivity). subst. cbn. lia.
  - cbn in R. rewrite RL in R. inversion R; subst. inversion N as [|? ? NI _]; subst. exfalso. apply NI.
    rewrite in_rev, RL. left. reflexivity.
Qed.
Lemma entries_rev keys l : entries (rev keys) l = rev (entries keys l).
Proof.
  unfold entries. induction keys as [|k keys IH]; [reflexivity|]. cbn. rewrite flat_map_app, IH, rev_app_distr. cbn.
  rewrite app_nil_r. f_equal. destruct (assoc k l); reflexivity.
Qed.

Lemma rest_value E pats vals seed p s s1 name : (forall seed l, Permutation (e_order E seed l) l) ->
  pats_of pats vals p -> kwrest_names pats = [name] -> bind_rest E seed p s = Ok s1 ->
  exists left, left = List.filter (fun '(j, _) => negb (is_some (keyword_value j pats))) (inserts (rpairs vals) []) /\
    get name (x_defs s1) = Some (variable (entries (e_order E seed (map fst left)) left)).
Proof.
  intros ORDER [A [B [C [D F]]]] N H. unfold bind_rest in H. rewrite leftover_eq, A, B, C in H.
  set (rest := skipn (length (ordinary pats)) (positionals vals)) in *.
  set (lhs := inserts (lpairs pats) []) in *. set (rhs := inserts (rpairs vals) []) in *.
  assert (N1 : NoDup (map fst lhs)) by (apply inserts_nodup; constructor).
  set (keys := e_order E (S seed) (map fst lhs)) in *.
  assert (PK : Permutation keys (map fst lhs)) by apply ORDER.
  assert (NK : NoDup keys) by (eapply Permutation_NoDup; [symmetry; exact PK|exact N1]).
  assert (X : forall j, existsb (fun k => beq k j) keys = is_some (keyword_value j pats)).
  { intros j. destruct (keyword_value j pats) as [v|] eqn:K; cbn [is_some].
    - apply existsb_exists. exists j. split; [|apply beq_refl]. rewrite PK.
      change j with (fst (j, v)). apply in_map. apply assoc_in. unfold lhs. rewrite assoc_inserts, last_lpairs, K.
      reflexivity.
    - apply Bool.not_true_iff_false. intros Y. apply existsb_exists in Y as [k [I Q]].
      apply beq_eq in Q. subst k. rewrite PK in I. apply in_map_iff in I as [[j' v] [Q I]].
      cbn in Q. subst. apply in_assoc in I; [|exact N1].
      unfold lhs in I. rewrite assoc_inserts, last_lpairs, K in I. discriminate. }
  assert (FQ : forall l, List.filter (fun '(j, _) => negb (existsb (fun k => beq k j) keys)) l
    = List.filter (fun '(j, _) => negb (is_some (keyword_value j pats))) (l : list (bytes * node))).
  { intros l. apply filter_ext. intros [j n]. rewrite X. reflexivity. }
  apply opt_name_cases in F as [[R Q]|[a [R Q]]]; [congruence|]. rewrite N in Q. inversion Q; subst name.
  eexists. split; [reflexivity|]. rewrite <- FQ.
  assert (G : forall s0, (let '(rhs_named, s) := bind_named keys lhs rhs s0 in
     let keys := e_order E seed (map fst rhs_named) in
     match b_rest_kw p with
     | Some a =>
         let s := if 2 <=? length rhs_named then order_matters s else s in
         Ok (put_var (skipn 2 (a_val a)) (entries keys rhs_named) s)
     | None =>
         match entries keys rhs_named with
         | [] => Ok s
         | n :: _ => Err (EErr EBindExcessKeyword (node_site n))
         end
     end) = Ok s1 -> get (skipn 2 (a_val a)) (x_defs s1) = Some (variable
      (entries (e_order E seed (map fst (List.filter (fun '(j, _) => negb (existsb (fun k => beq k j) keys)) rhs)))
        (List.filter (fun '(j, _) => negb (existsb (fun k => beq k j) keys)) rhs)))).
  { intros s0 Y. rewrite (bind_named_eq lhs keys NK) in Y. cbv zeta in Y. rewrite R in Y.
    inversion Y; subst. unfold put_var, set_defs. cbn [x_defs]. apply get_put_same. }
  destruct (b_rest p); [exact (G _ H)|]. destruct (rev rest); cbn [bind] in H; [exact (G _ H)|discriminate].
Qed.

Lemma disputed_differs E st ps vs s s1 name : (forall seed l, Permutation (e_order E seed l) l) ->
  bind_list E st ps vs s = Ok s1 -> kwrest_names ps = [name] -> 2 <= length (surplus_keywords ps vs) ->
  exists s2, bind_list (with_order (fun seed l => rev (e_order E seed l)) E) st ps vs s = Ok s2 /\
    get name (x_defs s1) <> get name (x_defs s2).
Proof.
  intros ORDER H N L. set (o := fun seed l => rev (e_order E seed l)).
  assert (ORDER' : forall seed l, Permutation (o seed l) l).
  { intros seed l. unfold o. rewrite <- Permutation_rev. apply ORDER. }
  destruct (bind_list_cases (with_order o E) ORDER' st ps vs s) as [[s2 [l [H' _]]]|[_ [[k st'] H']]].
  2: { pose proof (bind_kinds E o ORDER ORDER' st ps vs s s) as K. rewrite H, H' in K. discriminate. }
  exists s2. split; [exact H'|]. unfold bind_list, bind_list_with in H, H'.
  destruct (positional_kinds E o ORDER ORDER' st ps ltac:(apply Forall_forall; intros; apply node_kinds; assumption)
    (Progress vs [] [] None None) (new_maps 2 s) (new_maps 2 s)) as [_ P].
  assert (FA : Forall (bind_spec (bind_node E)) ps) by (apply Forall_forall; intros q _; apply bind_node_spec, ORDER).
  destruct (bind_positional (bind_node E) st ps (Progress vs [] [] None None) (new_maps 2 s)) as [[p s3]| | | |] eqn:BP;
    try discriminate.
  destruct (bind_positional (bind_node (with_order o E)) st ps (Progress vs [] [] None None) (new_maps 2 s))
    as [[p' s3']| | | |] eqn:BP'; try discriminate.
  cbn [bind] in H, H'. rewrite <- (P _ _ _ _ eq_refl eq_refl) in H'. clear BP' P p'.
  apply (bind_positional_ok _ st ps FA) in BP as [l1 [_ [_ [_ [D [G [I [J K]]]]]]]].
  cbn [b_rhs b_rhs_named b_lhs_named b_rest b_rest_kw opt_name app] in *.
  assert (PO : pats_of ps vs p) by (repeat split; assumption).
  destruct (rest_value E ps vs _ p _ _ name ORDER PO N H) as [left [QL ->]].
  destruct (rest_value (with_order o E) ps vs _ p _ _ name ORDER' PO N H') as [left' [QL' ->]].
  rewrite <- QL in QL'. subst left'. change (e_order (with_order o E)) with o. unfold o. rewrite entries_rev.
  set (es := entries _ left). intros Q. inversion Q as [Q1]. symmetry in Q1.
  assert (NR : NoDup (map fst (inserts (rpairs vs) []))) by (apply inserts_nodup; constructor).
  assert (NL : NoDup (map fst left)).
  { rewrite QL. clear -NR. induction (inserts (rpairs vs) []) as [|[j n] l IH]; [constructor|]. inversion NR; subst. cbn.
    destruct (is_some _); cbn; [auto|]. constructor; [|auto].
    intros I. apply H1. apply in_map_iff in I as [[j' m] [Q I]]. cbn in Q. subst.
    apply filter_In in I as [I _]. change j with (fst (j, m)). apply in_map, I. }
  assert (PE : Permutation es (surplus_keywords ps vs)).
  { unfold es. rewrite entries_perm; [|exact NL|apply ORDER].
    pose proof (surplus_perm ps vs (map fst (inserts (lpairs ps) [])) (Permutation_refl _)) as SP.
    rewrite <- SP, QL. apply Permutation_map.
    assert (FQ : List.filter (fun '(j, _) => negb (is_some (keyword_value j ps))) (inserts (rpairs vs) []) =
      List.filter (fun '(j, _) => negb (existsb (fun k => beq k j) (map fst (inserts (lpairs ps) [])))) (inserts (rpairs vs) [])).
    { apply filter_ext. intros [j n]. f_equal.
      destruct (keyword_value j ps) as [v|] eqn:K1; cbn [is_some]; symmetry.
      - apply existsb_exists. exists j. split; [|apply beq_refl].
        change j with (fst (j, v)). apply in_map. apply assoc_in. rewrite assoc_inserts, last_lpairs, K1. reflexivity.
      - apply Bool.not_true_iff_false. intros Y. apply existsb_exists in Y as [k [I1 Q2]].
        apply beq_eq in Q2. subst k. apply in_map_iff in I1 as [[j' v] [Q2 I1]].
        cbn in Q2. subst. apply in_assoc in I1; [|apply inserts_nodup; constructor].
        rewrite assoc_inserts, last_lpairs, K1 in I1. discriminate. }
    rewrite FQ. reflexivity. }
  assert (NE : NoDup es).
  { eapply Permutation_NoDup; [symmetry; exact PE|]. unfold surplus_keywords. apply NoDup_filter.
    eapply nodup_map, final_nodup. }
  apply rev_nodup in NE; [|exact Q1]. rewrite (Permutation_length PE) in NE. lia.
Qed.

(** ** Whole programs *)

Lemma exs_sim E o (strict : Prop) f : (forall seed l, Permutation (e_order E seed l) l) -> (forall seed l, Permutation (o seed l) l) ->
  (strict -> forall seed l, e_order E seed l = o seed l) -> forall ns s s', sim s s' ->
  osim strict s (expand_nodes E f ns s) (expand_nodes (with_order o E) f ns s').
Proof.
  intros O O' ST ns s s' S. apply sim_exs; [|exact S]. intros n s1 s1' S1. apply sim_run; auto.
Qed.

Lemma sim_contents s s' : sim s s' -> same_contents s s'.
Proof. intros S. destruct (sim_world _ _ S) as [A [_ [_ [B C]]]]. split; [apply sim_defs, S|]. auto. Qed.

Lemma program_order_free E o f path text ns s : (forall seed l, Permutation (e_order E seed l) l) ->
  (forall seed l, Permutation (o seed l) l) ->
  expand E f path text = Ok (ns, s) -> g_ordered (x_world s) = 0 ->
  exists s', expand (with_order o E) f path text = Ok (ns, s') /\ same_contents s s' /\ g_ordered (x_world s') = 0.
Proof.
  intros O O' H Z. unfold expand in *. change (e_unescape (with_order o E)) with (e_unescape E).
  destruct (parse (e_unescape E) 0 text) as [tree| | | |]; try discriminate. cbn [bind] in *.
  pose proof (exs_sim E o False f O O' ltac:(contradiction) tree _ _ (sim_refl (initial path text))) as R.
  rewrite H in R. destruct R as [_ R]. destruct R as [[ns' s'] [Q [Q1 Q2]]]; [right; exact Z|]. cbn in Q1, Q2. subst ns'.
  exists s'. split; [exact Q|]. split; [apply sim_contents, Q2|]. destruct (sim_world _ _ Q2) as [_ [_ [<- _]]]. exact Z.
Qed.

(** ** The same environment *)

Lemma evals_sim E ns s s' r : (forall seed l, Permutation (e_order E seed l) l) -> sim s s' -> evals E ns s r ->
  exists r', evals E ns s' r' /\
    match r with Ok (xs, s1) => exists s1', r' = Ok (xs, s1') /\ sim s1 s1' | _ => r' = r end.
Proof.
  intros O S [N [f H]]. specialize (H f (le_n f)).
  pose proof (exs_sim E (e_order E) True f O O ltac:(reflexivity) ns s s' S) as R. rewrite with_own_order, H in R.
  assert (D : forall r', expand_nodes E f ns s' = r' -> r' <> OutOfFuel -> evals E ns s' r').
  { intros r' Q N'. rewrite <- Q. refine (settles_at (fun f => expand_nodes E f ns s') f _ _); [apply growing_nodes|].
    rewrite Q. exact N'. }
  destruct r as [[xs s1]|e|p| |]; cbn in R.
  - destruct R as [_ R]. destruct (R (or_introl I)) as [[xs' s1'] [Q [Q1 Q2]]]. cbn in Q1, Q2. subst xs'.
    exists (Ok (xs, s1')). split; [apply D; [exact Q|discriminate]|]. eauto.
  - exists (Err e). split; [apply D; [apply R, I|discriminate]|reflexivity].
  - exists (Panic p). split; [apply D; [apply R, I|discriminate]|reflexivity].
  - exists Hang. split; [apply D; [apply R, I|discriminate]|reflexivity].
  - contradiction.
Qed.

(** The place named in errors does not matter for the rest. *)
Lemma positional_site E st st' pats : forall p s,
  match bind_positional (bind_node E) st pats p s with
  | Ok x => bind_positional (bind_node E) st' pats p s = Ok x
  | Err (EErr k _) => exists st2, bind_positional (bind_node E) st' pats p s = Err (EErr k st2)
  | _ => True
  end.
Proof.
  induction pats as [|n pats IH]; intros p s; cbn [bind_positional]; [reflexivity|].
  destruct n as [a|a|a|a|l|k v]; try (apply IH);
    (destruct (is_rest_kw _); [destruct (b_rest_kw p); [eauto|apply IH]|]);
    (destruct (is_rest _); [destruct (b_rest p); [eauto|apply IH]|]);
    (destruct (next_positional _ _) as [[[n1 rhs] named]|]; [|eauto]);
    (destruct (bind_node E _ n1 s) as [s1|[k1 st1]| | |]; cbn [bind]; eauto; apply IH).
Qed.
Lemma bind_site E st st' ps vs s :
  match bind_list E st ps vs s with
  | Ok x => bind_list E st' ps vs s = Ok x
  | Err (EErr k _) => exists st2, bind_list E st' ps vs s = Err (EErr k st2)
  | _ => True
  end.
Proof.
  unfold bind_list, bind_list_with. pose proof (positional_site E st st' ps (Progress vs [] [] None None) (new_maps 2 s)) as H.
  destruct (bind_positional (bind_node E) st ps _ _) as [[p s1]|[k st1]| | |]; cbn [bind]; trivial.
  - rewrite H. cbn [bind]. destruct (bind_rest _ _ _ _) as [|[k st2]| | |]; eauto.
  - destruct H as [st2 ->]. cbn [bind]. eauto.
Qed.

Lemma called_sim E st st' m vs s s' r : (forall seed l, Permutation (e_order E seed l) l) -> sim s s' ->
  called E st m vs s r -> exists r', called E st' m vs s' r' /\ alike r r'.
Proof.
  intros O S H.
  assert (S1 := sim_vec (vec_clone (x_vec s)) (vec_clone (x_vec s')) _ _ S).
  fold (copied s) (copied s') in S1.
  pose proof (sim_bind_list E (e_order E) True O O ltac:(reflexivity) st (m_params m) vs _ _ S1) as R.
  rewrite with_own_order in R. pose proof (bind_site E st st' (m_params m) vs (copied s')) as T.
  inversion H as [s1 l q [B [L [D X]]] Ev|e N B]; subst r.
  - rewrite B in R. destruct R as [_ R]. destruct (R (or_introl I)) as [s1' [Q S2]]. rewrite Q in T.
    destruct (evals_sim E _ _ _ _ O S2 Ev) as [q' [Ev' C]].
    destruct (bind_list_cases E O st' (m_params m) vs (copied s')) as [[s1'' [l' BL]]|[N [e B']]]; [|congruence].
    assert (BL' := BL). destruct BL' as [B' _]. rewrite T in B'. inversion B'; subst s1''.
    exists (closed s' q'). split; [eapply called_body; eauto|].
    destruct q as [[xs s3]|[k st3]|p| |]; cbn in C.
    + destruct C as [s3' [-> S3]]. cbn. split; [reflexivity|]. apply sim_contents.
      destruct (sim_world _ _ S) as [_ [_ [_ [SR _]]]]. unfold left_. rewrite SR. clear -S S3. unfold free_from. sims.
    + subst q'. reflexivity.
    + subst q'. reflexivity.
    + subst q'. exact I.
    + destruct Ev as [NE _]. contradiction.
  - rewrite B in R. rewrite (R I) in T. destruct e as [k st2]. destruct T as [st3 T].
    exists (Err (EErr k st3)). split; [|reflexivity]. apply called_mismatch; assumption.
Qed.

Lemma apply_direct E name a args args' n n' s : (forall seed l, Permutation (e_order E seed l) l) ->
  find_builtin name = None -> a_val a = name -> starts_with (b "%") name = false -> Forall macro_free args ->
  is_call (b "apply") (Sym a :: args) n -> is_call name args' n' -> received args' = args ->
  exists s1 s1', sim s1 s1' /\
  (forall r, eval E n s r <-> match get name (x_defs s) with
                           | Some m => called E (node_site n) m args s1 r
                           | None => r = Err (EErr EMacroNotFound (node_site n))
                           end) /\
  (forall r, eval E n' s r <-> match get name (x_defs s) with
                           | Some m => called E (node_site n') m args s1' r
                           | None => r = Err (EErr EMacroNotFound (node_site n'))
                           end).
Proof.
  intros O B A M F C C' R.
  assert (Q : exists a', received (Sym a :: args) = Sym a' :: args /\ a_val a' = name).
  { cbn [received leading_ws]. destruct (has LF _); [exists a|exists (Atom (a_val a) (a_site a) [])]; auto. }
  destruct Q as [a' [Q A']].
  assert (F' : Forall macro_free (Sym a' :: args)).
  { constructor; [|exact F]. constructor; [rewrite A'; exact M|constructor]. }
  destruct (evals_macro_free E _ F' (entered n s)) as [s0 [V0 [D0 W0]]].
  destruct (evals_macro_free E _ F (noted n s s0)) as [s1 [V1 [D1 W1]]].
  destruct (evals_macro_free E _ F (entered n' s)) as [s1' [V1' [D1' W1']]].
  assert (ES : forall n, sim (entered n s) s) by (intros m; split; reflexivity).
  assert (S1 : sim s1 s).
  { eapply sim_trans; [split; [exact D1|rewrite W1; reflexivity]|]. unfold noted.
    eapply sim_trans; [apply (sim_touch _ (ref n s)), (sim_refl s0)|].
    eapply sim_trans; [|apply (ES n)]. unfold touch. destruct (_ =? _); split; cbn; rewrite ?W0; auto. }
  assert (S1' : sim s1' s).
  { eapply sim_trans; [split; [exact D1'|rewrite W1'; reflexivity]|apply ES]. }
  exists s1, s1'. split; [eapply sim_trans; [exact S1|apply sim_sym, S1']|]. split.
  - intros r. rewrite (eval_apply E (Sym a :: args) n s r C), Q. split.
    + intros [q [V H]]. rewrite (evals_fun E _ _ _ _ V V0) in H. change (positionals (Sym a' :: args)) with (Sym a' :: positionals args) in H.
      cbn [drop_positionals] in H. replace (drop_positionals 0 args) with args in H by (destruct args; reflexivity). rewrite A' in H.
      apply (invokes_macro E O name _ _ _ _ B) in H as [q' [V' H]]. rewrite (evals_fun E _ _ _ _ V' V1) in H.
      rewrite (sim_defs _ _ S1) in H. exact H.
    + intros H. exists (Ok (Sym a' :: args, s0)). split; [exact V0|]. change (positionals (Sym a' :: args)) with (Sym a' :: positionals args).
      cbn [drop_positionals]. replace (drop_positionals 0 args) with args by (destruct args; reflexivity). rewrite A'. apply (invokes_macro E O name _ _ _ _ B).
      exists (Ok (args, s1)). split; [exact V1|]. rewrite (sim_defs _ _ S1). exact H.
  - intros r. rewrite (eval_user E O name args' n' s r B C'), R. split.
    + intros [q [V H]]. rewrite (evals_fun E _ _ _ _ V V1') in H. rewrite (sim_defs _ _ S1') in H. exact H.
    + intros H. exists (Ok (args, s1')). split; [exact V1'|]. rewrite (sim_defs _ _ S1'). exact H.
Qed.

Lemma alike_sym r r' : alike r r' -> alike r' r.
Proof.
  destruct r as [[]|[]| | |], r' as [[]|[]| | |]; cbn; auto. intros [-> [A [B [C D]]]].
  split; [reflexivity|]. repeat split; symmetry; assumption.
Qed.
Theorem apply_as_call E name a args args' n n' s : (forall seed l, Permutation (e_order E seed l) l) ->
  find_builtin name = None -> a_val a = name -> starts_with (b "%") name = false -> Forall macro_free args ->
  is_call (b "apply") (Sym a :: args) n -> is_call name args' n' -> received args' = args ->
  (forall r, eval E n s r -> exists r', eval E n' s r' /\ alike r r') /\
  (forall r', eval E n' s r' -> exists r, eval E n s r /\ alike r r').
Proof.
  intros O B A M F C C' R. destruct (apply_direct E name a args args' n n' s O B A M F C C' R) as [s1 [s1' [S [H H']]]].
  destruct (get name (x_defs s)) as [m|].
  - split.
    + intros r V. apply H in V. destruct (called_sim E _ (node_site n') m args s1 s1' r O S V) as [r' [V' L]].
      exists r'. split; [apply H', V'|exact L].
    + intros r' V. apply H' in V. destruct (called_sim E _ (node_site n) m args s1' s1 r' O (sim_sym _ _ S) V) as [r [V' L]].
      exists r. split; [apply H, V'|apply alike_sym, L].
  - split.
    + intros r V. apply H in V. subst. eexists. split; [apply H'; reflexivity|reflexivity].
    + intros r' V. apply H' in V. subst. eexists. split; [apply H; reflexivity|reflexivity].
Qed.
