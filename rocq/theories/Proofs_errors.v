(** * Proofs about complaints *)

From Coq Require Import String List Ascii Bool Arith Lia Permutation.
From Verif Require Import Text Res Ast Env Scope State Bind Spec_args Spec_bind Spec_errors
  Proofs_text Proofs_ast Proofs_args Proofs_bind.
From Verif Require Import Args.
Import ListNotations.

(** ** One argument *)

Lemma unfit_not_fits t n k st : unfit t n k st -> ~ fits t n.
Proof.
  induction 1 as [t n A K|t n A K|t n K V|ts ns st ew es w T L|ts ns st ew es w i t n k bad L T N B U IH];
    intros F.
  - apply K. clear -F. destruct t; cbn in F |- *; try exact I;
      try (destruct F as [[a F] _]; repeat match type of F with _ \/ _ => destruct F as [F|F] end; subst; exact I).
    destruct F as [? [? [? [? [? [-> _]]]]]]. exact I.
  - apply K. clear -F. destruct t; cbn in F |- *; try exact I;
      try (destruct F as [[a F] _]; repeat match type of F with _ \/ _ => destruct F as [F|F] end; subst; exact I).
    destruct F as [? [? [? [? [? [-> _]]]]]]. exact I.
  - apply V. destruct t; cbn in F |- *; try (destruct F as [_ F]); try exact F. left. reflexivity.
  - apply fits_list in F as [ns' [st' [ew' [es' [w' [Q [F|F]]]]]]]; [contradiction|].
    inversion Q; subst. apply L. clear -F. revert ns' F. induction ts as [|t ts IH]; intros [|n ns] F; cbn in *;
      try contradiction; [reflexivity|]. f_equal. apply IH, F.
  - apply fits_list in F as [ns' [st' [ew' [es' [w' [Q [F|F]]]]]]].
    { subst. destruct i; discriminate. }
    inversion Q; subst. apply IH. clear -F T N. revert i ns' T N F.
    induction ts as [|t0 ts IH]; intros [|i] [|n0 ns] T N F; cbn in *; try discriminate; try contradiction.
    + inversion T; inversion N; subst. apply F.
    + eapply IH; eauto. apply F.
Qed.

Lemma check_all_err ps n e : check_all ps n = Err e <-> ~ allowed ps n /\ e = EErr EArgValue (node_site n).
Proof.
  pose proof (check_all_iff ps n) as A. unfold check_all in *. destruct ps as [|p ps].
  - split; [discriminate|]. intros [H _]. destruct H. left. reflexivity.
  - destruct (existsb _ _).
    + split; [discriminate|]. intros [H _]. destruct H. apply A. reflexivity.
    + split.
      * intros H. inversion H; subst. split; [|reflexivity]. intros G. apply A in G. discriminate.
      * intros [_ ->]. reflexivity.
Qed.

Lemma zip_err ts : Forall (fun t => forall n k st, check t n = Err (EErr k st) <-> unfit t n k st) ts ->
  forall ns k st, length ns = length ts ->
  zip ts ns = Err (EErr k st) <->
  exists i t n, nth_error ts i = Some t /\ nth_error ns i = Some n /\
    (forall j t' n', j < i -> nth_error ts j = Some t' -> nth_error ns j = Some n' -> fits t' n') /\
    unfit t n k st.
Proof.
  induction 1 as [|t ts H _ IH]; intros [|n ns] k st L; cbn [zip length] in *; try discriminate.
  { split; [discriminate|]. intros [[|i] [? [? [? _]]]]; discriminate. }
  injection L as L. destruct (tame_check t n) as [[[] C]|[[k0 st0] C]]; rewrite C; cbn [bind].
  - apply check_iff in C. rewrite (IH ns k st L). split.
    + intros [i [t' [n' [A [B [D U]]]]]]. exists (S i), t', n'. split; [exact A|]. split; [exact B|].
      split; [|exact U]. intros [|j] t2 n2 J A2 B2; cbn in *.
      * inversion A2; inversion B2; subst. exact C.
      * apply (D j t2 n2); [lia|assumption|assumption].
    + intros [[|i] [t' [n' [A [B [D U]]]]]]; cbn in A, B.
      * inversion A; inversion B; subst. apply unfit_not_fits in U. contradiction.
      * exists i, t', n'. split; [exact A|]. split; [exact B|]. split; [|exact U].
        intros j t2 n2 J A2 B2. apply (D (S j) t2 n2); [lia|assumption|assumption].
  - split.
    + intros Q. inversion Q; subst. exists 0, t, n. split; [reflexivity|]. split; [reflexivity|].
      split; [intros; lia|]. apply H. exact C.
    + intros [[|i] [t' [n' [A [B [D U]]]]]]; cbn in A, B.
      * inversion A; inversion B; subst. apply H in U. congruence.
      * specialize (D 0 t n ltac:(lia) eq_refl eq_refl). apply check_iff in D. congruence.
Qed.

Ltac clean := repeat match goal with
  | H : ?x = ?x |- _ => clear H
  | H : True |- _ => clear H
  | H : ~ True |- _ => destruct (H I)
  | H : False |- _ => destruct H
  end.

Lemma check_err t : forall n k st, check t n = Err (EErr k st) <-> unfit t n k st.
Proof.
  induction t as [ps|ps|ps|ps|ps|ts IH|ps] using argtype_ind'; intros n k st.
  1-5,7: destruct n; cbn [check]; rewrite ?check_all_err;
   (split; intros H;
    [ match type of H with
       | _ /\ _ => destruct H as [V Q]; inversion Q; subst; apply unfit_value; [exact I|exact V]
       | _ => inversion H; subst; first [apply unfit_attribute; [reflexivity|intros []]
                                   |apply unfit_kind; [reflexivity|intros []]] end
    | inversion H; subst; cbn in *; clean; try discriminate;
      first [ reflexivity | split; [assumption|reflexivity] ] ]).
  destruct n.
  1-4,6: cbn [check]; split; intros H;
    [ inversion H; subst; first [apply unfit_attribute; [reflexivity|intros []]
                                |apply unfit_kind; [reflexivity|intros []]]
    | inversion H; subst; cbn in *; clean; try discriminate; try reflexivity ].
  rewrite check_list. destruct (negb (length ts =? 0) && negb (length nodes =? length ts)) eqn:L.
  - apply andb_true_iff in L as [L0 L]. apply negb_true_iff, Nat.eqb_neq in L0, L. split; intros H.
    + inversion H; subst. apply unfit_length; [|exact L]. intros ->. apply L0. reflexivity.
    + inversion H; subst; cbn in *; clean; try discriminate; try reflexivity; try contradiction.
      destruct H1. left. reflexivity.
  - destruct ts as [|t ts].
    { cbn [zip]. split; [discriminate|]. intros H. exfalso. eapply unfit_not_fits; [exact H|].
      apply fits_list. exists nodes, st0, end_ws, end_site, ws. split; [reflexivity|]. left. reflexivity. }
    assert (L' : length nodes = length (t :: ts)).
    { cbn [length Nat.eqb negb andb] in L. apply negb_false_iff, Nat.eqb_eq in L. exact L. }
    rewrite (zip_err (t :: ts) IH nodes k st L'). split.
    + intros [i [t' [n' [A [B [D U]]]]]]. eapply unfit_item; eauto.
    + intros H. remember (t :: ts) as l eqn:QL.
      inversion H; subst; cbn [is_attribute attribute is_some kind_fits values] in *; clean;
        try discriminate; try contradiction.
      * match goal with V : ~ allowed [] _ |- _ => destruct V; left; reflexivity end.
      * eexists _, _, _. eauto.
Qed.

(** ** The loop over the arguments *)

Section Rules.
Variable rs : rules.
Hypothesis W : well_formed rs.

Lemma obeys_fits x : obeys_rules rs x <-> one_fits rs x.
Proof.
  destruct x as [pos p]. unfold obeys_rules, one_fits. cbn [fst snd].
  pose proof (find_rule rs pos W) as F. destruct (find _ _) as [r|].
  - split; [intros [A _]; apply A, F|]. intros H. split.
    + intros r' R. rewrite (rule_unique rs pos r' r W R F). exact H.
    + intros N. destruct (N r F).
  - split; [intros [_ A]; apply A, F|]. intros H. split; [|auto]. intros r R. destruct (F r R).
Qed.

Lemma offends_find pos p k st :
  offends rs pos p k st <->
  match find (rule_matches pos) (patterns rs) with
  | Some r => unfit (argtype_of (r_arg r)) (meant p) k st
  | None =>
      match trailing rs with
      | Some t => unfit t p k st
      | None => k = match pos with PStr _ => EArgNamed | PInt _ => EArgExcess end /\ st = node_site p
      end
  end.
Proof.
  pose proof (find_rule rs pos W) as F. destruct (find _ _) as [r|].
  - split; [|apply offends_rule; exact F].
    intros H. inversion H; subst;
      try (match goal with N : forall r, ~ rule_for _ _ _ |- _ => destruct (N _ F) end).
    match goal with R : rule_for _ _ _ |- _ => rewrite (rule_unique rs pos r _ W F R) end. assumption.
  - destruct (trailing rs) as [t|] eqn:T.
    + split; [|apply offends_trailing; [exact F|exact T]].
      intros H. inversion H; subst; try congruence.
      match goal with R : rule_for _ _ _ |- _ => destruct (F _ R) end.
    + split.
      * intros H. inversion H; subst; try congruence; auto.
        match goal with R : rule_for _ _ _ |- _ => destruct (F _ R) end.
      * intros [-> ->]. destruct pos; [eapply offends_excess|eapply offends_keyword]; eauto.
Qed.

Lemma offends_unfit pos p k st : offends rs pos p k st -> ~ one_fits rs (pos, p).
Proof.
  rewrite offends_find. unfold one_fits. cbn [fst snd]. destruct (find _ _) as [r|].
  - apply unfit_not_fits.
  - destruct (trailing rs) as [t|].
    + intros U [t' [Q F]]. inversion Q; subst. apply unfit_not_fits in U. contradiction.
    + intros _ [t' [Q _]]. discriminate.
Qed.

Lemma parse_params_err ps : forall i m acc k st,
  parse_params rs ps i m acc = Err (EErr k st) <->
  exists before pos p after, slots i ps = before ++ (pos, p) :: after /\
    Forall (obeys_rules rs) before /\ offends rs pos p k st.
Proof.
  induction ps as [|p ps IH]; intros i m acc k st.
  { cbn. split; [discriminate|]. intros [[|? ?] [? [? [? [Q _]]]]]; discriminate. }
  assert (K : exists pos i', slots i (p :: ps) = (pos, p) :: slots i' ps /\
     (match pos with PStr _ => EArgNamed | PInt _ => EArgExcess end =
      match p with Attr _ _ _ _ => EArgNamed | _ => EArgExcess end) /\
     parse_params rs (p :: ps) i m acc =
      match find (rule_matches pos) (patterns rs) with
      | Some r =>
          let* _ := check (argtype_of (r_arg r)) (meant p) in
          parse_params rs ps i' (if is_mandatory (r_arg r) then S m else m)
            (match pos with
            | PInt i => Parsed ((i, meant p) :: p_num acc) (p_named acc) (p_rest acc)
            | PStr k => Parsed (p_num acc) ((k, meant p) :: p_named acc) (p_rest acc)
            end)
      | None =>
          match trailing rs with
          | Some t =>
              let* _ := check t p in
              parse_params rs ps i' m (Parsed (p_num acc) (p_named acc) (p_rest acc ++ [p]))
          | None =>
              Err (EErr (match p with Attr _ _ _ _ => EArgNamed | _ => EArgExcess end)
                        (node_site p))
          end
      end).
  { destruct p; cbn [slots parse_params meant].
    1-5: exists (PInt (S i)), (S i); repeat split; reflexivity.
    exists (PStr keyword), i. repeat split; reflexivity. }
  destruct K as [pos [i' [S1 [K1 P1]]]]. rewrite S1, P1. clear S1 P1.
  (* the rest of the list, once this argument is fine *)
  assert (OK : one_fits rs (pos, p) -> forall (r : res (parsed * nat)),
    (r = Err (EErr k st) <-> exists before pos p after, slots i' ps = before ++ (pos, p) :: after /\
       Forall (obeys_rules rs) before /\ offends rs pos p k st) ->
    r = Err (EErr k st) <-> exists before pos' p' after,
      (pos, p) :: slots i' ps = before ++ (pos', p') :: after /\
      Forall (obeys_rules rs) before /\ offends rs pos' p' k st).
  { intros F r ->. split.
    - intros [before [q [p' [after [Q [B O]]]]]]. exists ((pos, p) :: before), q, p', after.
      split; [cbn; congruence|]. split; [constructor; [apply obeys_fits, F|exact B]|exact O].
    - intros [[|x before] [q [p' [after [Q [B O]]]]]]; cbn in Q; inversion Q; subst.
      + apply offends_unfit in O. contradiction.
      + inversion B; subst. exists before, q, p', after. auto. }
  (* or else it is to blame *)
  assert (BAD : forall k0 st0 (r : res (parsed * nat)), r = Err (EErr k0 st0) ->
    offends rs pos p k0 st0 -> (offends rs pos p k st -> EErr k st = EErr k0 st0) ->
    r = Err (EErr k st) <-> exists before pos' p' after,
      (pos, p) :: slots i' ps = before ++ (pos', p') :: after /\
      Forall (obeys_rules rs) before /\ offends rs pos' p' k st).
  { intros k0 st0 r -> O U. split.
    - intros Q. inversion Q; subst. exists [], pos, p, (slots i' ps). auto.
    - intros [[|x before] [q [p' [after [Q [B O']]]]]]; cbn in Q; inversion Q; subst.
      + rewrite (U O'). reflexivity.
      + inversion B; subst. apply offends_unfit in O. exfalso. apply O, obeys_fits. assumption. }
  assert (OF := offends_find pos p k). assert (OF' := offends_find pos p).
  unfold one_fits in OK. cbn [fst snd] in OK.
  destruct (find (rule_matches pos) (patterns rs)) as [r|] eqn:F.
  - destruct (tame_check (argtype_of (r_arg r)) (meant p)) as [[[] C]|[[k0 st0] C]].
    + apply OK; [apply check_iff, C|]. rewrite C. cbn [bind]. apply IH.
    + apply (BAD k0 st0); [rewrite C; reflexivity|apply OF', check_err, C|].
      intros O. apply OF, check_err in O. congruence.
  - destruct (trailing rs) as [t|] eqn:T.
    + destruct (tame_check t p) as [[[] C]|[[k0 st0] C]].
      * apply OK; [exists t; split; [reflexivity|apply check_iff, C]|]. rewrite C. cbn [bind]. apply IH.
      * apply (BAD k0 st0); [rewrite C; reflexivity|apply OF', check_err, C|].
        intros O. apply OF, check_err in O. congruence.
    + apply (BAD (match p with Attr _ _ _ _ => EArgNamed | _ => EArgExcess end) (node_site p));
        [reflexivity|apply OF'; split; [symmetry; exact K1|reflexivity]|].
      intros O. apply OF in O as [-> ->]. rewrite K1. reflexivity.
Qed.

Lemma supplied_counted l :
  length (filter (fun '(pos, _) => existsb (argpos_eqb pos)
            (flat_map r_pos (filter (fun r => is_mandatory (r_arg r)) (patterns rs)))) l)
  = counted rs l.
Proof.
  induction l as [|[pos p] l IH]; [reflexivity|]. cbn [filter counted].
  set (x := existsb (argpos_eqb pos) _).
  assert (X : x = match find (rule_matches pos) (patterns rs) with
                  | Some r => is_mandatory (r_arg r) | None => false end).
  { unfold x. apply Bool.eq_true_iff_eq. rewrite existsb_exists.
    pose proof (find_rule rs pos W) as F. destruct (find _ _) as [r|].
    - split.
      + intros [q [I Q]]. apply argpos_eqb_eq in Q. subst q. apply in_flat_map in I as [r' [I P]].
        apply filter_In in I as [I M]. rewrite (rule_unique rs pos r r' W F); [exact M|]. split; assumption.
      + intros M. exists pos. split; [|apply argpos_eqb_eq; reflexivity]. destruct F as [I P].
        apply in_flat_map. exists r. split; [apply filter_In; auto|exact P].
    - split; [|discriminate]. intros [q [I Q]]. apply argpos_eqb_eq in Q. subst q.
      apply in_flat_map in I as [r' [I P]]. apply filter_In in I as [I M]. destruct (F r'). split; assumption. }
  rewrite X. destruct (find _ _) as [r|]; [|exact IH].
  destruct (is_mandatory _); cbn [length]; rewrite IH; reflexivity.
Qed.

Lemma missing_dec ps :
  (forall pos r t, rule_for rs pos r -> r_arg r = Mandatory t -> given pos ps <> None) \/
  (exists pos r t, rule_for rs pos r /\ r_arg r = Mandatory t /\ given pos ps = None).
Proof.
  destruct (existsb (fun '(a, pos) => is_mandatory a && negb (is_some (given pos ps)))
    (flat_map (fun r => map (pair (r_arg r)) (r_pos r)) (patterns rs))) eqn:F.
  - right. apply existsb_exists in F as [[a pos] [I F]]. apply in_table in I as [r [R <-]].
    apply andb_true_iff in F as [M G]. destruct (r_arg r) as [t|t] eqn:A; [|discriminate].
    exists pos, r, t. destruct (given pos ps); [discriminate|auto].
  - left. intros pos r t R A G. rewrite <- Bool.not_true_iff_false, existsb_exists in F. apply F.
    exists (r_arg r, pos). split; [apply in_table; eauto|]. rewrite A, G. reflexivity.
Qed.

Lemma extract_err call p l e :
  mapr (fun '(a, pos) => extract_one call p a pos) l = Err e -> e = EErr EArgMissing (node_site call).
Proof.
  induction l as [|[a pos] l IH]; cbn [mapr]; [discriminate|].
  destruct (extract_one call p a pos) as [x|e0| | |] eqn:X; cbn [bind]; try discriminate.
  - destruct (mapr _ l) eqn:M; cbn [bind]; try discriminate. intros H. apply IH. exact H.
  - intros H. inversion H; subst. unfold extract_one in X. destruct (get_param p pos).
    + exfalso. destruct (argtype_of a); cbn in X; try destruct (atomic n); try destruct (list_of n); discriminate.
    + destruct (is_mandatory a); [congruence|discriminate].
Qed.

Lemma all_given_enough ps :
  (forall pos r t, rule_for rs pos r -> r_arg r = Mandatory t -> given pos ps <> None) ->
  count_mandatory rs <= counted rs (slots 0 ps).
Proof.
  intros M. apply counted_enough; [exact W|]. intros r I Ma.
  destruct W as [_ Ne]. rewrite Forall_forall in Ne. specialize (Ne r I).
  destruct (r_pos r) as [|q qs] eqn:Q; [congruence|].
  assert (R : rule_for rs q r) by (split; [exact I|rewrite Q; left; reflexivity]).
  destruct (r_arg r) as [t|t] eqn:A; [|discriminate].
  specialize (M q r t R A). rewrite <- last_at_given in M.
  destruct (last_at q (slots 0 ps)) as [n|] eqn:L; [|congruence].
  apply last_at_in in L as [p' [I' _]]. exists q, p'. split; [left; reflexivity|exact I'].
Qed.

Lemma last_rev (n : node) ps :
  match rev ps with x :: _ => node_site x | [] => node_site n end = node_site (last ps n).
Proof.
  induction ps as [|x ps IH] using rev_ind; [reflexivity|]. rewrite rev_app_distr, last_last. reflexivity.
Qed.

Lemma complains_not_accepted n ps k st : complains rs n ps k st -> ~ accepted rs ps.
Proof.
  intros C A. apply (accepted_iff rs ps W) in A as [A M]. destruct C.
  - rewrite H in A. apply Forall_app in A as [_ A]. inversion A; subst.
    apply offends_unfit in H1. contradiction.
  - eapply M; eauto.
  - eapply M; eauto.
Qed.

Lemma arguments_err n ps k st :
  arguments rs n ps = Err (EErr k st) <-> complains rs n ps k st.
Proof.
  split; intros H.
  - assert (NA : ~ accepted rs ps).
    { intros A. destruct (arguments_spec rs n ps W) as [X _]. destruct (X A) as [x [Q _]]. congruence. }
    unfold arguments, parse_args in H.
    destruct (parse_params_iff rs ps 0 0 (Parsed [] [] [])) as [P1 P2].
    destruct (all_fit_dec rs (slots 0 ps)) as [F|F].
    2: { destruct (P2 F) as [[k0 st0] Q]. rewrite Q in H. cbn in H. inversion H; subst.
         apply parse_params_err in Q as [before [pos [p [after [Q [B O]]]]]].
         econstructor 1; eauto. }
    assert (OB : Forall (obeys_rules rs) (slots 0 ps)).
    { eapply Forall_impl; [|exact F]. intros x. apply obeys_fits. }
    destruct (missing_dec ps) as [M|[pos [r [t [R [A G]]]]]].
    { destruct NA. apply (accepted_iff rs ps W). auto. }
    rewrite (P1 F) in H. clear P1 P2. cbn [bind] in H. rewrite Nat.add_0_r, last_rev in H.
    rewrite <- supplied_counted in H. fold (supplied rs ps) in H.
    change (count_mandatory rs) with (demanded rs) in H.
    destruct (supplied rs ps <? demanded rs) eqn:L.
    + cbn [bind] in H. inversion H; subst. apply Nat.ltb_lt in L. econstructor 2; eauto.
    + apply Nat.ltb_ge in L. cbn [bind] in H.
      destruct (mapr _ (flat_map _ _)) as [xs|e| | |] eqn:X; cbn [bind] in H; try discriminate.
      * exfalso. clear -H. destruct (trailing rs) as [t|]; [|discriminate].
        assert (G : forall l e, mapr (convert t) l <> Err e).
        { clear. induction l as [|x l IH]; intros e; cbn [mapr]; [discriminate|].
          destruct (convert t x) eqn:C; cbn [bind]; try discriminate.
          - destruct (mapr (convert t) l) eqn:Q; cbn [bind]; try discriminate. intros _. eapply IH. reflexivity.
          - destruct t; cbn in C; try destruct (atomic x); try destruct (list_of x); discriminate. }
        destruct (mapr (convert t) _) eqn:Q; cbn [bind] in H; try discriminate. eapply G; eauto.
      * inversion H; subst. apply extract_err in X. inversion X; subst. econstructor 3; eauto.
  - pose proof (complains_not_accepted n ps k st H) as NA.
    destruct (arguments_spec rs n ps W) as [_ X]. destruct (X NA) as [[k0 st0] Q]. rewrite Q. clear X.
    unfold arguments, parse_args in Q.
    destruct (parse_params_iff rs ps 0 0 (Parsed [] [] [])) as [P1 P2].
    inversion H; subst.
    + rewrite (proj2 (parse_params_err ps 0 0 _ k st)) in Q; [cbn in Q; congruence|].
      eexists _, _, _, _; eauto.
    + assert (F : Forall (one_fits rs) (slots 0 ps)).
      { eapply Forall_impl; [|exact H0]. intros x. apply obeys_fits. }
      rewrite (P1 F) in Q. cbn [bind] in Q. rewrite Nat.add_0_r, last_rev in Q.
      rewrite <- supplied_counted in Q. fold (supplied rs ps) in Q.
      change (count_mandatory rs) with (demanded rs) in Q.
      rewrite (proj2 (Nat.ltb_lt _ _) H4) in Q. cbn in Q. congruence.
    + assert (F : Forall (one_fits rs) (slots 0 ps)).
      { eapply Forall_impl; [|exact H0]. intros x. apply obeys_fits. }
      rewrite (P1 F) in Q. cbn [bind] in Q. rewrite Nat.add_0_r, last_rev in Q.
      rewrite <- supplied_counted in Q. fold (supplied rs ps) in Q.
      change (count_mandatory rs) with (demanded rs) in Q.
      rewrite (proj2 (Nat.ltb_ge _ _) H4) in Q. cbn [bind] in Q.
      set (p := gather rs (slots 0 ps) (Parsed [] [] [])) in Q.
      assert (X : exists e, mapr (fun '(a, pos) => extract_one n p a pos)
                  (flat_map (fun r => map (pair (r_arg r)) (r_pos r)) (patterns rs)) = Err e).
      { destruct (extract_all n p (fun pos => given pos ps)
          (flat_map (fun r => map (pair (r_arg r)) (r_pos r)) (patterns rs))) as [_ X2].
        - intros a q I. apply in_table in I as [r' [R <-]].
          unfold p. rewrite (gather_get rs q r' _ R), last_at_given.
          destruct (given q ps); [reflexivity|]. destruct q; reflexivity.
        - intros a q x I G. apply in_table in I as [r' [R <-]].
          rewrite <- last_at_given in G. apply last_at_in in G as [z [I ->]].
          rewrite Forall_forall in F. specialize (F _ I). unfold one_fits in F. cbn [fst snd] in F.
          pose proof (find_rule rs q W) as FR. destruct (find _ _) as [r''|].
          + rewrite (rule_unique rs q r' r'' W R FR). exact F.
          + destruct (FR r' R).
        - rewrite table_nodup. apply W.
        - apply X2. intros M. apply (M (r_arg r) pos); [apply in_table; eauto|rewrite H2; reflexivity|exact H3]. }
      destruct X as [e X]. pose proof (extract_err _ _ _ _ X) as ->. rewrite X in Q. cbn in Q. congruence.
Qed.

(** So some complaint is made exactly when the arguments break the rules, and
    only one. *)
Lemma complains_exists n ps : ~ accepted rs ps <-> exists k st, complains rs n ps k st.
Proof.
  split.
  - intros NA. destruct (arguments_spec rs n ps W) as [_ X]. destruct (X NA) as [[k st] Q].
    exists k, st. apply arguments_err, Q.
  - intros [k [st C]]. eapply complains_not_accepted, C.
Qed.
Lemma complains_unique n ps k st k' st' :
  complains rs n ps k st -> complains rs n ps k' st' -> k = k' /\ st = st'.
Proof. intros A B. apply arguments_err in A, B. rewrite A in B. inversion B. auto. Qed.
End Rules.

(** ** Patterns *)

(** Errors that amount to the same: the same one, or another surplus
    keyword. *)
Definition like (k : ekind) (st : site) {A} (r : res A) : Prop :=
  r = Err (EErr k st) \/
  (k = EBindExcessKeyword /\ exists st', r = Err (EErr EBindExcessKeyword st')).

Definition blames (bind : node -> node -> state -> res state) (p : node) : Prop :=
  (forall v s k st, bind p v s = Err (EErr k st) -> mismatch p v k st) /\
  (forall v s k st, mismatch p v k st -> like k st (bind p v s)).

Lemma rest_names_cons n ns : rest_names (n :: ns) =
  match rest_name n with Some x => [x] | None => [] end ++ rest_names ns.
Proof. reflexivity. Qed.
Lemma kwrest_names_cons n ns : kwrest_names (n :: ns) =
  match kwrest_name n with Some x => [x] | None => [] end ++ kwrest_names ns.
Proof. reflexivity. Qed.

Section Loop.
Variable bind : node -> node -> state -> res state.
Variable assigned : site.

(** One round of the loop. *)
Lemma bind_positional_step n pats p s :
  bind_positional bind assigned (n :: pats) p s =
  match n with
  | Attr k v _ _ =>
      bind_positional bind assigned pats
        (Progress (b_rhs p) (b_rhs_named p) (named_insert k v (b_lhs_named p))
                  (b_rest p) (b_rest_kw p)) s
  | _ =>
      match is_rest_kw n, is_rest n with
      | Some a, _ =>
          match b_rest_kw p with
          | Some _ => Err (EErr EBindMultiRest (node_site n))
          | None => bind_positional bind assigned pats
                      (Progress (b_rhs p) (b_rhs_named p) (b_lhs_named p)
                                (b_rest p) (Some a)) s
          end
      | None, Some a =>
          match b_rest p with
          | Some _ => Err (EErr EBindMultiRest (node_site n))
          | None => bind_positional bind assigned pats
                      (Progress (b_rhs p) (b_rhs_named p) (b_lhs_named p)
                                (Some a) (b_rest_kw p)) s
          end
      | None, None =>
          match next_positional (b_rhs p) (b_rhs_named p) with
          | None => Err (EErr EBindTooFew assigned)
          | Some (n1, rhs, named) =>
              let* s := bind n n1 s in
              bind_positional bind assigned pats
                (Progress rhs named (b_lhs_named p) (b_rest p) (b_rest_kw p)) s
          end
      end
  end.
Proof. destruct n; reflexivity. Qed.

Lemma bind_positional_app before : forall after p s,
  bind_positional bind assigned (before ++ after) p s =
  let* '(p', s') := bind_positional bind assigned before p s in
  bind_positional bind assigned after p' s'.
Proof.
  induction before as [|n before IH]; intros after p s; [reflexivity|].
  rewrite <- app_comm_cons, !bind_positional_step.
  destruct n; try apply IH;
    (destruct (is_rest_kw _); [destruct (b_rest_kw p); [reflexivity|apply IH]|]);
    (destruct (is_rest _); [destruct (b_rest p); [reflexivity|apply IH]|]);
    (destruct (next_positional _ _) as [[[n1 rhs] named]|]; [|reflexivity]);
    (destruct (bind _ _ s); cbn [Res.bind]; [apply IH|reflexivity..]).
Qed.

Lemma bind_positional_err pats :
  Forall (bind_spec bind) pats -> Forall (blames bind) pats -> forall p s k st,
  bind_positional bind assigned pats p s = Err (EErr k st) ->
  exists before q after l, pats = before ++ q :: after /\
    binds_each (ordinary before) (firstn (length (ordinary before)) (positionals (b_rhs p))) l /\
    length (opt_name 1 (b_rest p) ++ rest_names before) <= 1 /\
    length (opt_name 2 (b_rest_kw p) ++ kwrest_names before) <= 1 /\
    mismatch_at assigned q (skipn (length (ordinary before)) (positionals (b_rhs p)))
      (opt_name 1 (b_rest p) ++ rest_names before)
      (opt_name 2 (b_rest_kw p) ++ kwrest_names before) k st.
Proof.
  induction 1 as [|n pats Hn _ IH]; intros FB p s k st H; [discriminate H|].
  inversion FB as [|? ? Bn FB']; subst. specialize (IH FB').
  rewrite bind_positional_step in H.
  assert (L1 : length (opt_name 1 (b_rest p)) <= 1) by (destruct (b_rest p); cbn; lia).
  assert (L2 : length (opt_name 2 (b_rest_kw p)) <= 1) by (destruct (b_rest_kw p); cbn; lia).
  (* the error is at this parameter *)
  assert (HERE : mismatch_at assigned n (positionals (b_rhs p)) (opt_name 1 (b_rest p))
                   (opt_name 2 (b_rest_kw p)) k st ->
    exists before q after l, n :: pats = before ++ q :: after /\
    binds_each (ordinary before) (firstn (length (ordinary before)) (positionals (b_rhs p))) l /\
    length (opt_name 1 (b_rest p) ++ rest_names before) <= 1 /\
    length (opt_name 2 (b_rest_kw p) ++ kwrest_names before) <= 1 /\
    mismatch_at assigned q (skipn (length (ordinary before)) (positionals (b_rhs p)))
      (opt_name 1 (b_rest p) ++ rest_names before)
      (opt_name 2 (b_rest_kw p) ++ kwrest_names before) k st).
  { intros M. exists [], n, pats, []. cbn [app ordinary rest_names kwrest_names flat_map filter length].
    rewrite !app_nil_r. split; [reflexivity|]. split; [constructor|]. auto. }
  destruct (param_kinds n) as [[kw [v [stn [w ->]]]] | [NA [K | [K | K]]]].
  - apply IH in H as [before [q [after [l [-> H]]]]]. exists (Attr kw v stn w :: before), q, after, l.
    split; [reflexivity|]. exact H.
  - destruct K as [a [K1 [K2 K3]]].
    assert (H' : match b_rest_kw p with
              | Some _ => Err (EErr EBindMultiRest (node_site n))
              | None => bind_positional bind assigned pats
                          (Progress (b_rhs p) (b_rhs_named p) (b_lhs_named p)
                                    (b_rest p) (Some a)) s
              end = Err (EErr k st)).
    { rewrite K1 in H. destruct n; try discriminate; exact H. }
    clear H. destruct (b_rest_kw p) eqn:R.
    + inversion H'; subst. apply HERE. apply mismatch_kwrest; [rewrite K2; discriminate|discriminate].
    + apply IH in H' as [before [q [after [l [-> H]]]]]. exists (n :: before), q, after, l.
      split; [reflexivity|]. rewrite ordinary_cons, rest_names_cons, kwrest_names_cons, NA, K2, K3.
      exact H.
  - destruct K as [a [K1 [K0 [K2 K3]]]].
    assert (H' : match b_rest p with
              | Some _ => Err (EErr EBindMultiRest (node_site n))
              | None => bind_positional bind assigned pats
                          (Progress (b_rhs p) (b_rhs_named p) (b_lhs_named p)
                                    (Some a) (b_rest_kw p)) s
              end = Err (EErr k st)).
    { rewrite K1, K0 in H. destruct n; try discriminate; exact H. }
    clear H. destruct (b_rest p) eqn:R.
    + inversion H'; subst. apply HERE. apply mismatch_rest; [rewrite K2; discriminate|discriminate].
    + apply IH in H' as [before [q [after [l [-> H]]]]]. exists (n :: before), q, after, l.
      split; [reflexivity|]. rewrite ordinary_cons, rest_names_cons, kwrest_names_cons, NA, K2, K3.
      exact H.
  - destruct K as [K1 [K0 [K2 K3]]].
    assert (H' : match next_positional (b_rhs p) (b_rhs_named p) with
              | None => Err (EErr EBindTooFew assigned)
              | Some (n1, rhs, named) =>
                  let* s := bind n n1 s in
                  bind_positional bind assigned pats
                    (Progress rhs named (b_lhs_named p) (b_rest p) (b_rest_kw p)) s
              end = Err (EErr k st)).
    { rewrite K1, K0 in H. destruct n; try discriminate; exact H. }
    clear H. pose proof (next_positional_eq (b_rhs p) (b_rhs_named p)) as NP.
    destruct (next_positional (b_rhs p) (b_rhs_named p)) as [[[n1 rhs] named]|].
    + destruct NP as [P1 P2].
      destruct (bind n n1 s) as [s1|[k0 st0]| | |] eqn:B1; try discriminate; cbn [Res.bind] in H'.
      * destruct Hn as [Hn _]. apply Hn in B1 as [l0 [B1 _]].
        apply IH in H' as [before [q [after [l [-> [A [B [C D]]]]]]]].
        cbn [b_rhs b_rest b_rest_kw] in *. exists (n :: before), q, after, (l0 ++ l).
        split; [reflexivity|]. rewrite ordinary_cons, rest_names_cons, kwrest_names_cons, NA, K2, K3, P1.
        cbn [negb is_some andb length firstn skipn app].
        split; [constructor; assumption|]. auto.
      * inversion H'; subst. apply HERE. rewrite P1. apply mismatch_value; [repeat split; assumption|].
        destruct Bn as [Bn _]. eapply Bn, B1.
    + inversion H'; subst. apply HERE. rewrite NP. apply mismatch_few. repeat split; assumption.
Qed.

Lemma bind_positional_blame q after p s k st :
  blames bind q ->
  mismatch_at assigned q (positionals (b_rhs p)) (opt_name 1 (b_rest p)) (opt_name 2 (b_rest_kw p)) k st ->
  like k st (bind_positional bind assigned (q :: after) p s).
Proof.
  intros [_ Bq] M. rewrite bind_positional_step.
  destruct (param_kinds q) as [[kw [v [stn [w ->]]]] | [NA [K | [K | K]]]].
  - inversion M as [? ? ? ? ? A|? ? ? ? ? A|? ? ? ? A|? ? ? ? ? ? ? ? A]; subst; cbn in A;
      try congruence; destruct A as [A _]; discriminate.
  - destruct K as [a [K1 [K2 K3]]].
    assert (R : k = EBindMultiRest /\ st = node_site q /\ b_rest_kw p <> None).
    { inversion M as [? ? ? ? ? A|? ? ? ? ? A B|? ? ? ? A|? ? ? ? ? ? ? ? A]; subst; try congruence;
        try (destruct A as [_ [_ A]]; congruence).
      split; [reflexivity|]. split; [reflexivity|]. intros R. rewrite R in B. apply B. reflexivity. }
    destruct R as [-> [-> R]]. left. rewrite K1. destruct (b_rest_kw p); [|congruence].
    destruct q; try discriminate; reflexivity.
  - destruct K as [a [K1 [K0 [K2 K3]]]].
    assert (R : k = EBindMultiRest /\ st = node_site q /\ b_rest p <> None).
    { inversion M as [? ? ? ? ? A B|? ? ? ? ? A B|? ? ? ? A|? ? ? ? ? ? ? ? A]; subst; try congruence;
        try (destruct A as [_ [A _]]; congruence).
      split; [reflexivity|]. split; [reflexivity|]. intros R. rewrite R in B. apply B. reflexivity. }
    destruct R as [-> [-> R]]. left. rewrite K1, K0. destruct (b_rest p); [|congruence].
    destruct q; try discriminate; reflexivity.
  - destruct K as [K1 [K0 [K2 K3]]].
    assert (G : like k st (match next_positional (b_rhs p) (b_rhs_named p) with
              | None => Err (EErr EBindTooFew assigned)
              | Some (n1, rhs, named) =>
                  let* s := bind q n1 s in
                  bind_positional bind assigned after
                    (Progress rhs named (b_lhs_named p) (b_rest p) (b_rest_kw p)) s
              end)).
    { pose proof (next_positional_eq (b_rhs p) (b_rhs_named p)) as NP.
      destruct (next_positional (b_rhs p) (b_rhs_named p)) as [[[n1 rhs] named]|].
      - destruct NP as [P1 P2]. rewrite P1 in M.
        inversion M as [? ? ? ? ? A B|? ? ? ? ? A B|? ? ? ? A|? ? ? ? ? ? ? ? A B]; subst; try congruence.
        destruct (Bq n1 s k st B) as [Q|[-> [st' Q]]]; rewrite Q; cbn [Res.bind]; [left; reflexivity|right; eauto].
      - rewrite NP in M.
        inversion M as [? ? ? ? ? A B|? ? ? ? ? A B|? ? ? ? A|? ? ? ? ? ? ? ? A B]; subst; try congruence.
        left. reflexivity. }
    rewrite K1, K0. destruct q; try discriminate; exact G.
Qed.
End Loop.

Section WithEnv.
Variable E : env.
Hypothesis ORDER : forall seed l, Permutation (e_order E seed l) l.

(** After the loop. *)
Lemma bind_rest_cases pats vals seed p s :
  pats_of pats vals p ->
  match skipn (length (ordinary pats)) (positionals vals), rest_names pats with
  | (_ :: _) as rest, [] =>
      forall vs v, rest = vs ++ [v] -> bind_rest E seed p s = Err (EErr EBindExcess (node_site v))
  | _, _ =>
      match kwrest_names pats with
      | [] =>
          match surplus_keywords pats vals with
          | [] => exists s', bind_rest E seed p s = Ok s'
          | _ :: _ => exists v, In v (surplus_keywords pats vals) /\
                        bind_rest E seed p s = Err (EErr EBindExcessKeyword (node_site v))
          end
      | _ :: _ => exists s', bind_rest E seed p s = Ok s'
      end
  end.
Proof.
  intros [A [B [C [D F]]]]. unfold bind_rest. rewrite leftover_eq, A, B, C.
  set (rest := skipn (length (ordinary pats)) (positionals vals)) in *.
  set (lhs := inserts (lpairs pats) []) in *. set (rhs := inserts (rpairs vals) []) in *.
  assert (N1 : NoDup (map fst lhs)) by (apply inserts_nodup; constructor).
  assert (N2 : NoDup (map fst rhs)) by (apply inserts_nodup; constructor).
  set (keys := e_order E (S seed) (map fst lhs)) in *.
  assert (PK : Permutation keys (map fst lhs)) by apply ORDER.
  assert (NK : NoDup keys) by (eapply Permutation_NoDup; [symmetry; exact PK|exact N1]).
  assert (G : forall s1 : state, match kwrest_names pats with
      | [] =>
          match surplus_keywords pats vals with
          | [] => exists s', (let '(rhs_named, s2) := bind_named keys lhs rhs s1 in
             let keys0 := e_order E seed (map fst rhs_named) in
             match b_rest_kw p with
             | Some a => let s3 := if 2 <=? length rhs_named then order_matters s2 else s2 in
                 Ok (put_var (skipn 2 (a_val a)) (entries keys0 rhs_named) s3)
             | None => match entries keys0 rhs_named with [] => Ok s2
                       | n :: _ => Err (EErr EBindExcessKeyword (node_site n)) end
             end) = Ok s'
          | _ :: _ => exists v, In v (surplus_keywords pats vals) /\
             (let '(rhs_named, s2) := bind_named keys lhs rhs s1 in
             let keys0 := e_order E seed (map fst rhs_named) in
             match b_rest_kw p with
             | Some a => let s3 := if 2 <=? length rhs_named then order_matters s2 else s2 in
                 Ok (put_var (skipn 2 (a_val a)) (entries keys0 rhs_named) s3)
             | None => match entries keys0 rhs_named with [] => Ok s2
                       | n :: _ => Err (EErr EBindExcessKeyword (node_site n)) end
             end) = Err (EErr EBindExcessKeyword (node_site v))
          end
      | _ :: _ => exists s', (let '(rhs_named, s2) := bind_named keys lhs rhs s1 in
             let keys0 := e_order E seed (map fst rhs_named) in
             match b_rest_kw p with
             | Some a => let s3 := if 2 <=? length rhs_named then order_matters s2 else s2 in
                 Ok (put_var (skipn 2 (a_val a)) (entries keys0 rhs_named) s3)
             | None => match entries keys0 rhs_named with [] => Ok s2
                       | n :: _ => Err (EErr EBindExcessKeyword (node_site n)) end
             end) = Ok s'
      end).
  { intros s1. rewrite (bind_named_eq lhs keys NK).
    set (left := List.filter _ rhs).
    assert (NL : NoDup (map fst left)).
    { unfold left. clear -N2. induction rhs as [|[j n] l IH]; [constructor|]. inversion N2; subst. cbn.
      destruct (existsb _ keys); cbn; [auto|]. constructor; [|auto].
      intros I. apply H1. apply in_map_iff in I as [[j' m] [Q I]]. cbn in Q. subst.
      apply filter_In in I as [I _]. change j with (fst (j, m)). apply in_map, I. }
    assert (PE : Permutation (entries (e_order E seed (map fst left)) left) (surplus_keywords pats vals)).
    { rewrite entries_perm; [|exact NL|apply ORDER]. unfold left, rhs, lhs. apply surplus_perm. exact PK. }
    cbv zeta.
    apply opt_name_cases in F as [[R Q]|[a [R Q]]]; rewrite R, Q; [|eauto].
    destruct (surplus_keywords pats vals) as [|x xs] eqn:SK.
    - apply Permutation_sym, Permutation_nil in PE. rewrite PE. eauto.
    - destruct (entries _ left) as [|y ys] eqn:EN.
      + apply Permutation_nil in PE. discriminate.
      + exists y. split; [|reflexivity]. rewrite <- PE. left. reflexivity. }
  apply opt_name_cases in D as [[R Q]|[a [R Q]]]; rewrite R, Q.
  - destruct rest as [|x xs] eqn:QR.
    + cbn [rev Res.bind]. apply G.
    + intros vs v QV. rewrite QV, rev_app_distr. reflexivity.
  - destruct rest as [|x xs]; cbn [Res.bind]; apply G.
Qed.

Lemma bind_list_blames bind assigned pats :
  Forall (bind_spec bind) pats -> Forall (blames bind) pats ->
  (forall vals s k st, bind_list_with E bind assigned pats vals s = Err (EErr k st) ->
     mismatch_args assigned pats vals k st) /\
  (forall vals s k st, mismatch_args assigned pats vals k st ->
     like k st (bind_list_with E bind assigned pats vals s)).
Proof.
  intros FA FB. unfold bind_list_with. split.
  - intros vals s k st H.
    destruct (bind_positional bind assigned pats (Progress vals [] [] None None) (new_maps 2 s))
      as [[p s1]|[k0 st0]| | |] eqn:BP; try discriminate; cbn [Res.bind] in H.
    + apply (bind_positional_ok bind assigned pats FA) in BP as [l [A [_ [_ [D [F [G [I J]]]]]]]].
      cbn [b_rhs b_rhs_named b_lhs_named b_rest b_rest_kw opt_name app] in *.
      assert (L2 : length (kwrest_names pats) <= 1).
      { rewrite <- J. destruct (b_rest_kw p); cbn; lia. }
      pose proof (bind_rest_cases pats vals (g_seed (x_world s)) p s1) as R.
      specialize (R ltac:(repeat split; assumption)).
      destruct (skipn (length (ordinary pats)) (positionals vals)) as [|x xs] eqn:SK.
      * destruct (kwrest_names pats) as [|y ys] eqn:KW; [|destruct R as [s' R]; congruence].
        destruct (surplus_keywords pats vals) as [|z zs] eqn:SU; [destruct R as [s' R]; congruence|].
        destruct R as [v [Iv R]]. rewrite R in H. inversion H; subst.
        assert (OR : exists l2, one_rest (rest_names pats) [] l2).
        { rewrite <- I. destruct (b_rest p); eexists; constructor. }
        destruct OR as [l2 OR].
        eapply mismatch_surplus; [exact A|rewrite SK; exact OR|exact KW|rewrite SU; exact Iv].
      * destruct (rest_names pats) as [|r rs] eqn:RN.
        -- destruct (exists_last (l := x :: xs)) as [vs [v Q]]; [discriminate|].
           rewrite (R vs v Q) in H. inversion H; subst.
           eapply mismatch_excess; [exact A|exact L2|exact RN|rewrite SK; exact Q].
        -- destruct (kwrest_names pats) as [|y ys] eqn:KW; [|destruct R as [s' R]; congruence].
           destruct (surplus_keywords pats vals) as [|z zs] eqn:SU; [destruct R as [s' R]; congruence|].
           destruct R as [v [Iv R]]. rewrite R in H. inversion H; subst.
           assert (RS : rs = []).
           { destruct (b_rest p); cbn in I; [inversion I; reflexivity|discriminate]. }
           subst rs. eapply mismatch_surplus; [exact A|rewrite SK, RN; constructor|exact KW|rewrite SU; exact Iv].
    + inversion H; subst.
      apply (bind_positional_err bind assigned pats FA FB) in BP as [before [q [after [l [Q [A [B [C D]]]]]]]].
      cbn [b_rhs b_rest b_rest_kw opt_name app] in *. eapply mismatch_param; eauto.
  - intros vals s k st M.
    inversion M as [? ? ? before q after l ? ? Q A L1 L2 MA
                   |? ? ? l v vs A L2 RN SK|? ? ? l l2 v A OR KW Iv]; subst.
    + rewrite bind_positional_app.
      apply Forall_app in FA as [FA _]. apply Forall_app in FB as [_ FB]. inversion FB; subst.
      destruct (bind_positional_complete bind assigned before FA (Progress vals [] [] None None)
                  (new_maps 2 s) l A L1 L2) as [p [s1 BP]].
      rewrite BP. cbn [Res.bind].
      apply (bind_positional_ok bind assigned before FA) in BP as [l1' [_ [_ [_ [D [_ [_ [I J]]]]]]]].
      cbn [b_rhs b_rhs_named b_lhs_named b_rest b_rest_kw opt_name app] in *.
      rewrite <- D, <- I, <- J in MA.
      destruct (bind_positional_blame bind assigned q after p s1 k st H1 MA) as [X|[-> [st' X]]];
        rewrite X; cbn [Res.bind]; [left; reflexivity|right; eauto].
    + destruct (bind_positional_complete bind assigned pats FA (Progress vals [] [] None None)
                  (new_maps 2 s) l A ltac:(cbn; rewrite RN; cbn; lia) L2) as [p [s1 BP]].
      rewrite BP. cbn [Res.bind].
      apply (bind_positional_ok bind assigned pats FA) in BP as [l1' [_ [_ [_ [D [F [G [I J]]]]]]]].
      cbn [b_rhs b_rhs_named b_lhs_named b_rest b_rest_kw opt_name app] in *.
      pose proof (bind_rest_cases pats vals (g_seed (x_world s)) p s1) as R.
      specialize (R ltac:(repeat split; assumption)). rewrite RN, SK in R.
      destruct (vs ++ [v]) as [|x xs] eqn:QV; [destruct vs; discriminate|].
      left. apply (R vs v). congruence.
    + assert (L1 : length (rest_names pats) <= 1) by (inversion OR; cbn; lia).
      destruct (bind_positional_complete bind assigned pats FA (Progress vals [] [] None None)
                  (new_maps 2 s) l A L1 ltac:(cbn; rewrite KW; cbn; lia)) as [p [s1 BP]].
      rewrite BP. cbn [Res.bind].
      apply (bind_positional_ok bind assigned pats FA) in BP as [l1' [_ [_ [_ [D [F [G [I J]]]]]]]].
      cbn [b_rhs b_rhs_named b_lhs_named b_rest b_rest_kw opt_name app] in *.
      pose proof (bind_rest_cases pats vals (g_seed (x_world s)) p s1) as R.
      specialize (R ltac:(repeat split; assumption)). rewrite KW in R.
      assert (R' : exists v, In v (surplus_keywords pats vals) /\
                bind_rest E (g_seed (x_world s)) p s1 = Err (EErr EBindExcessKeyword (node_site v))).
      { destruct (surplus_keywords pats vals) as [|z zs]; [contradiction|].
        inversion OR as [Q1 Q2|? ? Q1 Q2]; subst.
        - rewrite <- Q2 in R. exact R.
        - rewrite <- Q1 in R. destruct (skipn _ _); exact R. }
      destruct R' as [v' [_ R']]. right. split; [reflexivity|]. rewrite R'. eauto.
Qed.

Lemma bind_node_blames p : blames (bind_node E) p.
Proof.
  induction p as [a|a|a|a|pats st ew es w IH|k p st w IH] using node_ind'.
  - split; intros v s k st H; [discriminate H|inversion H].
  - split; intros v s k st H.
    + cbn [bind_node] in H. destruct v as [x|x|x|x| |];
        try (inversion H; subst; apply mismatch_number; intros y Q; discriminate).
      destruct (beq (a_val a) (a_val x)) eqn:Q; [discriminate|]. inversion H; subst.
      apply mismatch_number. intros y Y. inversion Y; subst. apply beq_neq in Q. congruence.
    + inversion H; subst. left. cbn [bind_node]. destruct v as [x|x|x|x| |]; try reflexivity.
      rewrite (proj2 (beq_neq _ _)); [reflexivity|]. intros Q; match goal with X : forall x, _ -> _ <> _ |- _ => eapply X; eauto end.
  - split; intros v s k st H.
    + cbn [bind_node] in H. destruct v as [x|x|x|x| |];
        try (inversion H; subst; apply mismatch_string; intros y [Q|Q]; discriminate);
        (destruct (beq (a_val a) (a_val x)) eqn:Q; [discriminate|]); inversion H; subst;
        apply mismatch_string; intros y [Y|Y]; inversion Y; subst; apply beq_neq in Q; congruence.
    + inversion H; subst. left. cbn [bind_node]. destruct v as [x|x|x|x| |]; try reflexivity;
        (rewrite (proj2 (beq_neq _ _)); [reflexivity|]); intros Q; match goal with X : forall x, _ -> _ <> _ |- _ => eapply X; eauto end.
  - split; intros v s k st H.
    + cbn [bind_node] in H. destruct v as [x|x|x|x| |];
        try (inversion H; subst; apply mismatch_raw; intros y [Q|Q]; discriminate);
        (destruct (beq (a_val a) (a_val x)) eqn:Q; [discriminate|]); inversion H; subst;
        apply mismatch_raw; intros y [Y|Y]; inversion Y; subst; apply beq_neq in Q; congruence.
    + inversion H; subst. left. cbn [bind_node]. destruct v as [x|x|x|x| |]; try reflexivity;
        (rewrite (proj2 (beq_neq _ _)); [reflexivity|]); intros Q; match goal with X : forall x, _ -> _ <> _ |- _ => eapply X; eauto end.
  - assert (FA : Forall (bind_spec (bind_node E)) pats).
    { apply Forall_forall. intros q _. apply bind_node_spec, ORDER. }
    split; intros v s k bad H.
    + cbn [bind_node] in H. destruct v as [x|x|x|x|vals st' ew' es' w'|];
        try (inversion H; subst; apply mismatch_list; reflexivity).
      apply (proj1 (bind_list_blames _ _ _ FA IH)) in H. apply mismatch_inside. exact H.
    + inversion H; subst.
      * left. cbn [bind_node]. destruct v; try reflexivity. discriminate.
      * cbn [bind_node]. apply (proj2 (bind_list_blames _ _ _ FA IH)). assumption.
  - destruct IH as [IH1 IH2]. split; intros v s k0 bad H.
    + cbn [bind_node] in H. destruct v as [x|x|x|x| |k1 v st1 w1];
        try (inversion H; subst; apply mismatch_keyword; intros ? ? ? Q; discriminate).
      destruct (beq k k1) eqn:Q.
      * apply beq_eq in Q. subst. apply mismatch_attr. eapply IH1, H.
      * inversion H; subst. apply mismatch_keyword. intros ? ? ? Y. inversion Y; subst.
        rewrite beq_refl in Q. discriminate.
    + inversion H; subst.
      * left. cbn [bind_node]. destruct v as [x|x|x|x| |k1 v st1 w1]; try reflexivity.
        destruct (beq k k1) eqn:Q; [|reflexivity]. apply beq_eq in Q. subst.
        exfalso. match goal with X : forall v' st' w', _ <> _ |- _ => eapply X; reflexivity end.
      * cbn [bind_node]. rewrite beq_refl. apply IH2. assumption.
Qed.

Lemma bind_args_blames assigned pats :
  (forall vals s k st, bind_list E assigned pats vals s = Err (EErr k st) ->
     mismatch_args assigned pats vals k st) /\
  (forall vals s k st, mismatch_args assigned pats vals k st ->
     like k st (bind_list E assigned pats vals s)).
Proof.
  apply bind_list_blames; apply Forall_forall; intros q _; [apply bind_node_spec, ORDER|apply bind_node_blames].
Qed.
End WithEnv.
