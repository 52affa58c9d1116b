(** * Proofs about macro argument checking *)

From Coq Require Import List Ascii Bool Arith Lia.
From Verif Require Import Text Res Ast Args Spec_args Proofs_text.
Import ListNotations.

Fixpoint argtype_ind' (P : argtype -> Prop)
  (HL : forall ps, P (TLiteral ps)) (HS : forall ps, P (TString ps))
  (HY : forall ps, P (TSymbol ps)) (HN : forall ps, P (TNumber ps))
  (HM : forall ps, P (TSymbolic ps)) (HT : forall ts, Forall P ts -> P (TList ts))
  (HA : forall ps, P (TAny ps)) (t : argtype) : P t :=
  match t with
  | TLiteral ps => HL ps | TString ps => HS ps | TSymbol ps => HY ps | TNumber ps => HN ps
  | TSymbolic ps => HM ps
  | TList ts =>
      HT ts ((fix go ts : Forall P ts :=
                match ts with
                | [] => Forall_nil P
                | t :: ts' => Forall_cons t (argtype_ind' P HL HS HY HN HM HT HA t) (go ts')
                end) ts)
  | TAny ps => HA ps
  end.

Lemma pred_ok_iff p n : pred_ok p n = true <-> satisfied p n.
Proof.
  destruct p; cbn; try reflexivity.
  - destruct (atomic n) as [a|].
    + rewrite beq_eq. split; [eauto|]. intros [a' [A <-]]. congruence.
    + split; [discriminate|]. intros [a' [A _]]. discriminate.
  - destruct (atomic n) as [a|].
    + split; [eauto|]. intros [a' [A H]]. congruence.
    + split; [discriminate|]. intros [a' [A _]]. discriminate.
Qed.

Lemma check_all_iff ps n : check_all ps n = Ok tt <-> allowed ps n.
Proof.
  unfold check_all, allowed. destruct ps as [|p ps]; [split; auto|].
  destruct (existsb _ _) eqn:X; split; intros H; try reflexivity; try discriminate.
  - right. apply existsb_exists in X as [q [I Q]]. exists q. split; [exact I|]. apply pred_ok_iff, Q.
  - destruct H as [H|[q [I Q]]]; [discriminate|]. exfalso.
    rewrite <- Bool.not_true_iff_false, existsb_exists in X. apply X.
    exists q. split; [exact I|]. apply pred_ok_iff, Q.
Qed.

(** Either fine or an error. *)
Definition tame {A} (r : res A) : Prop := (exists x, r = Ok x) \/ exists e, r = Err e.

Lemma tame_ok {A} (x : A) : tame (Ok x). Proof. left. eauto. Qed.
Lemma tame_err {A} e : tame (@Err A e). Proof. right. eauto. Qed.
Lemma tame_bind {A B} (r : res A) (k : A -> res B) :
  tame r -> (forall x, r = Ok x -> tame (k x)) -> tame (bind r k).
Proof. intros [[x ->]|[e ->]] H; cbn; [auto|apply tame_err]. Qed.

Lemma tame_check_all ps n : tame (check_all ps n).
Proof. unfold check_all. destruct ps; [apply tame_ok|]. destruct existsb; [apply tame_ok|apply tame_err]. Qed.

Fixpoint zip (ts : list argtype) (ns : list node) : res unit :=
  match ts, ns with
  | t :: ts', n :: ns' => let* _ := check t n in zip ts' ns'
  | _, _ => Ok tt
  end.
Fixpoint each (ts : list argtype) (ns : list node) : Prop :=
  match ts, ns with
  | [], [] => True
  | t :: ts', m :: ns' => fits t m /\ each ts' ns'
  | _, _ => False
  end.

Lemma check_list ts ns st ew es w :
  check (TList ts) (Lst ns st ew es w) =
  if negb (length ts =? 0) && negb (length ns =? length ts)
  then Err (EErr EArgType st) else zip ts ns.
Proof.
  cbn [check]. destruct (_ && _); [reflexivity|].
  revert ns. induction ts as [|t ts IH]; intros [|n ns]; reflexivity.
Qed.

Lemma fits_list ts n :
  fits (TList ts) n <->
  exists ns st ew es w, n = Lst ns st ew es w /\ (ts = [] \/ each ts ns).
Proof.
  assert (R : forall ts ns,
    (fix each (ts : list argtype) (ns : list node) : Prop :=
            match ts, ns with
            | [], [] => True
            | t :: ts', m :: ns' => fits t m /\ each ts' ns'
            | _, _ => False
            end) ts ns = each ts ns).
  { clear. induction ts as [|t ts IH]; intros [|n ns]; reflexivity. }
  cbn [fits]. split; intros [ns [st [ew [es [w [-> H]]]]]]; exists ns, st, ew, es, w;
    (split; [reflexivity|]); [rewrite <- R | rewrite R]; exact H.
Qed.

Lemma tame_check t : forall n, tame (check t n).
Proof.
  induction t as [ps|ps|ps|ps|ps|ts IH|ps] using argtype_ind'; intros n; destruct n;
    try (cbn [check]; apply tame_check_all || apply tame_err).
  rewrite check_list. destruct (_ && _); [apply tame_err|].
  revert nodes. induction IH as [|t ts H F IH]; intros [|n ns]; cbn [zip]; try apply tame_ok.
  apply tame_bind; [apply H|]. intros _ _. apply IH.
Qed.

Lemma check_iff t : forall n, check t n = Ok tt <-> fits t n.
Proof.
  induction t as [ps|ps|ps|ps|ps|ts IH|ps] using argtype_ind'; intros n.
  1-5,7: destruct n; cbn [check fits]; rewrite ?check_all_iff;
    try tauto;
    try (split; [intros H; split; [eauto 7|exact H] | intros [_ H]; exact H]);
    (split; [discriminate | intros [[a0 H] _];
      repeat match type of H with _ \/ _ => destruct H as [H|H] end; discriminate]).
  rewrite fits_list. destruct n.
  1-4,6: cbn [check]; split; [discriminate|];
    intros [? [? [? [? [? [? _]]]]]]; discriminate.
  rewrite check_list.
  assert (Z : forall ns, length ns = length ts -> (zip ts ns = Ok tt <-> each ts ns)).
  { clear -IH. induction IH as [|t ts H F IH]; intros [|n ns] L; cbn in *; try discriminate; [tauto|].
    specialize (IH ns ltac:(lia)). destruct (tame_check t n) as [[[] C]|[e C]]; rewrite C; cbn.
    - rewrite IH. apply H in C. tauto.
    - split; [discriminate|]. intros [T _]. apply H in T. congruence. }
  assert (Le : forall ts ns, each ts ns -> length ns = length ts).
  { clear. induction ts as [|t ts IH]; intros [|n ns]; cbn; intuition. }
  split.
  - intros H. exists nodes, st, end_ws, end_site, ws. split; [reflexivity|].
    destruct ts as [|t ts]; [left; reflexivity|right].
    cbn [length Nat.eqb negb andb] in H. destruct (length nodes =? S (length ts)) eqn:L; [|discriminate].
    apply Nat.eqb_eq in L. apply Z; assumption.
  - intros [ns [st' [ew [es [w [Q H]]]]]]. inversion Q; subst.
    destruct ts as [|t ts]; [reflexivity|]. destruct H as [H|H]; [discriminate|].
    rewrite (Le _ _ H), Nat.eqb_refl, andb_false_r. apply Z; auto.
Qed.

(** ** Positions *)

Lemma argpos_eqb_eq x y : argpos_eqb x y = true <-> x = y.
Proof.
  destruct x, y; cbn; try (split; discriminate).
  - rewrite Nat.eqb_eq. split; congruence.
  - rewrite beq_eq. split; congruence.
Qed.

Lemma rule_matches_iff p r : rule_matches p r = true <-> In p (r_pos r).
Proof.
  unfold rule_matches. rewrite existsb_exists. split.
  - intros [x [I H]]. apply argpos_eqb_eq in H. subst. exact I.
  - intros I. exists p. split; [exact I|]. apply argpos_eqb_eq. reflexivity.
Qed.

Lemma nodup_rules (l : list rule) pos r r' :
  NoDup (flat_map r_pos l) -> In r l -> In r' l -> In pos (r_pos r) -> In pos (r_pos r') -> r = r'.
Proof.
  induction l as [|x l IH]; cbn; intros N I I' P P'; [contradiction|].
  assert (D : forall a, In a (r_pos x) -> In a (flat_map r_pos l) -> False).
  { intros a A B. revert N A B. generalize (flat_map r_pos l). clear.
    induction (r_pos x) as [|y ys IHy]; cbn; intros m N A B; [contradiction|].
    inversion N; subst. destruct A as [->|A]; [|eauto].
    apply H1. apply in_or_app. auto. }
  assert (N' : NoDup (flat_map r_pos l)).
  { clear -N. induction (r_pos x); [exact N|]. inversion N; auto. }
  destruct I as [->|I], I' as [->|I']; auto.
  - exfalso. apply (D pos P). apply in_flat_map. eauto.
  - exfalso. apply (D pos P'). apply in_flat_map. eauto.
Qed.

Lemma rule_unique rs pos r r' : well_formed rs -> rule_for rs pos r -> rule_for rs pos r' -> r = r'.
Proof. intros [N _] [I P] [I' P']. eapply nodup_rules; eauto. Qed.

Lemma find_rule rs pos :
  well_formed rs ->
  match find (rule_matches pos) (patterns rs) with
  | Some r => rule_for rs pos r
  | None => forall r, ~ rule_for rs pos r
  end.
Proof.
  intros W. destruct (find _ _) as [r|] eqn:F.
  - apply find_some in F as [I M]. split; [exact I|]. apply rule_matches_iff, M.
  - intros r [I P]. apply find_none with (x := r) in F; [|exact I].
    apply rule_matches_iff in P. congruence.
Qed.

Lemma has_rule_iff rs pos : has_rule rs pos = true <-> exists r, rule_for rs pos r.
Proof.
  unfold has_rule. rewrite existsb_exists. split.
  - intros [x [I H]]. apply argpos_eqb_eq in H. subst. apply in_flat_map in I as [r [I P]].
    exists r. split; assumption.
  - intros [r [I P]]. exists pos. split; [apply in_flat_map; eauto|]. apply argpos_eqb_eq. reflexivity.
Qed.

(** ** The loop *)

(** Outcome of the loop on the arguments' positions. *)
Definition one_fits (rs : rules) (x : argpos * node) : Prop :=
  match find (rule_matches (fst x)) (patterns rs) with
  | Some r => fits (argtype_of (r_arg r)) (meant (snd x))
  | None => exists t, trailing rs = Some t /\ fits t (snd x)
  end.

(** How the accumulated maps relate to the arguments read so far. *)
Fixpoint counted (rs : rules) (l : list (argpos * node)) : nat :=
  match l with
  | [] => 0
  | (pos, _) :: l' =>
      match find (rule_matches pos) (patterns rs) with
      | Some r => if is_mandatory (r_arg r) then S (counted rs l') else counted rs l'
      | None => counted rs l'
      end
  end.

Definition gather (rs : rules) (l : list (argpos * node)) (acc : parsed) : parsed :=
  fold_left (fun acc '(pos, p) =>
    match find (rule_matches pos) (patterns rs) with
    | Some _ =>
        match pos with
        | PInt i => Parsed ((i, meant p) :: p_num acc) (p_named acc) (p_rest acc)
        | PStr k => Parsed (p_num acc) ((k, meant p) :: p_named acc) (p_rest acc)
        end
    | None => Parsed (p_num acc) (p_named acc) (p_rest acc ++ [p])
    end) l acc.

Lemma parse_params_iff rs ps : forall i m acc,
  (Forall (one_fits rs) (slots i ps) ->
   parse_params rs ps i m acc = Ok (gather rs (slots i ps) acc, counted rs (slots i ps) + m)) /\
  (~ Forall (one_fits rs) (slots i ps) -> exists e, parse_params rs ps i m acc = Err e).
Proof.
  induction ps as [|p ps IH]; intros i m acc.
  { split; [intros _; reflexivity|]. intros H. destruct H. constructor. }
  assert (K : exists pos i', slots i (p :: ps) = (pos, p) :: slots i' ps /\
     parse_params rs (p :: ps) i m acc =
      match find (rule_matches pos) (patterns rs) with
      | Some r =>
          let* _ := check (argtype_of (r_arg r)) (meant p) in
          parse_params rs ps i' (if is_mandatory (r_arg r) then S m else m)
            (match pos with
            | PInt i => Parsed ((i, meant p) :: p_num acc) (p_named acc) (p_rest acc)
            | PStr k => Parsed (p_num acc) ((k, meant p) :: p_named acc) (p_rest acc)
            end)
      | None =>
          match trailing rs with
          | Some t =>
              let* _ := check t p in
              parse_params rs ps i' m (Parsed (p_num acc) (p_named acc) (p_rest acc ++ [p]))
          | None =>
              Err (EErr (match p with Attr _ _ _ _ => EArgNamed | _ => EArgExcess end)
                        (node_site p))
          end
      end).
  { destruct p; cbn [slots parse_params meant].
    1-5: exists (PInt (S i)), (S i); split; reflexivity.
    exists (PStr keyword), i. split; reflexivity. }
  destruct K as [pos [i' [S1 P1]]]. rewrite S1, P1. clear S1 P1.
  cbn [counted gather fold_left]. rewrite Forall_cons_iff. unfold one_fits at 1 3. cbn [fst snd].
  destruct (find (rule_matches pos) (patterns rs)) as [r|] eqn:F.
  - set (acc' := match pos with PInt j => _ | PStr k => _ end).
    destruct (IH i' (if is_mandatory (r_arg r) then S m else m) acc') as [IH1 IH2].
    destruct (tame_check (argtype_of (r_arg r)) (meant p)) as [[[] C]|[e C]]; rewrite C; cbn [bind].
    + apply check_iff in C. split.
      * intros [_ H]. rewrite (IH1 H). unfold gather, acc'.
        destruct (is_mandatory (r_arg r)); rewrite ?Nat.add_succ_r; reflexivity.
      * intros H. apply IH2. tauto.
    + split; [|eauto]. intros [H _]. apply check_iff in H. congruence.
  - destruct (trailing rs) as [t|].
    + destruct (IH i' m (Parsed (p_num acc) (p_named acc) (p_rest acc ++ [p]))) as [IH1 IH2].
      destruct (tame_check t p) as [[[] C]|[e C]]; rewrite C; cbn [bind].
      * apply check_iff in C. split.
        -- intros [_ H]. rewrite (IH1 H). reflexivity.
        -- intros H. apply IH2. intros G. apply H. split; [eauto|exact G].
      * split; [|eauto]. intros [[t' [Q H]] _]. inversion Q; subst. apply check_iff in H. congruence.
    + split; [|eauto]. intros [[t' [Q H]] _]. discriminate.
Qed.

(** Where an argument ends up. *)
Fixpoint last_at (pos : argpos) (l : list (argpos * node)) : option node :=
  match l with
  | [] => None
  | (q, p) :: l' =>
      match last_at pos l' with
      | Some x => Some x
      | None => if argpos_eqb pos q then Some (meant p) else None
      end
  end.

Lemma gather_cons rs pos p l acc :
  gather rs ((pos, p) :: l) acc =
  gather rs l (match find (rule_matches pos) (patterns rs) with
    | Some _ =>
        match pos with
        | PInt i => Parsed ((i, meant p) :: p_num acc) (p_named acc) (p_rest acc)
        | PStr k => Parsed (p_num acc) ((k, meant p) :: p_named acc) (p_rest acc)
        end
    | None => Parsed (p_num acc) (p_named acc) (p_rest acc ++ [p])
    end).
Proof. reflexivity. Qed.

Lemma gather_rest rs l : forall acc,
  p_rest (gather rs l acc) =
  p_rest acc ++ map snd (filter (fun '(pos, _) => negb (has_rule rs pos)) l).
Proof.
  induction l as [|[pos p] l IH]; intros acc.
  { symmetry. apply app_nil_r. }
  rewrite gather_cons, IH. cbn [filter].
  assert (H : has_rule rs pos = is_some (find (rule_matches pos) (patterns rs))).
  { unfold has_rule. induction (patterns rs) as [|r rl IHr]; cbn [flat_map find]; [reflexivity|].
    rewrite existsb_app, IHr. fold (rule_matches pos r).
    destruct (rule_matches pos r); reflexivity. }
  rewrite H. destruct (find _ _); cbn [is_some negb map].
  - destruct pos; reflexivity.
  - cbn [snd p_rest]. rewrite <- app_assoc. reflexivity.
Qed.

Lemma gather_get rs pos r l : rule_for rs pos r -> forall acc,
  get_param (gather rs l acc) pos =
  match last_at pos l with Some n => Some n | None => get_param acc pos end.
Proof.
  intros R. induction l as [|[q p] l IH]; intros acc; [reflexivity|].
  rewrite gather_cons, IH. cbn [last_at]. destruct (last_at pos l); [reflexivity|].
  destruct (argpos_eqb pos q) eqn:Q.
  - apply argpos_eqb_eq in Q. subst q.
    destruct (find (rule_matches pos) (patterns rs)) eqn:F.
    + destruct pos; cbn; rewrite ?Nat.eqb_refl, ?beq_refl; reflexivity.
    + exfalso. destruct R as [I P]. apply find_none with (x := r) in F; [|exact I].
      apply rule_matches_iff in P. congruence.
  - destruct (find _ _); [|destruct pos; reflexivity].
    destruct pos, q; cbn in *; rewrite ?Q; reflexivity.
Qed.

Lemma last_at_num j ps : forall i,
  last_at (PInt j) (slots i ps) =
  (if j <=? i then None else nth_error (positionals ps) (j - S i)).
Proof.
  induction ps as [|p ps IH]; intros i.
  { cbn. destruct (j <=? i); [reflexivity|]. destruct (j - S i); reflexivity. }
  assert (A : (exists k v st w, p = Attr k v st w) \/
              (slots i (p :: ps) = (PInt (S i), p) :: slots (S i) ps /\
               positionals (p :: ps) = p :: positionals ps /\ meant p = p)).
  { destruct p; [right; auto .. | left; eauto]. }
  destruct A as [[k [v [st [w ->]]]] | [A1 [A2 A3]]].
  - cbn [slots last_at positionals filter is_attribute attribute is_some negb]. rewrite IH. cbn.
    destruct (j <=? i); [reflexivity|]. destruct nth_error; reflexivity.
  - rewrite A1, A2. cbn [last_at]. rewrite IH, A3. cbn [argpos_eqb].
    destruct (j <=? i) eqn:L1.
    + apply Nat.leb_le in L1. rewrite (proj2 (Nat.leb_le _ _)) by lia.
      rewrite (proj2 (Nat.eqb_neq _ _)) by lia. reflexivity.
    + apply Nat.leb_gt in L1. destruct (Nat.eq_dec j (S i)) as [->|N].
      * rewrite Nat.leb_refl, Nat.eqb_refl, Nat.sub_diag. reflexivity.
      * rewrite (proj2 (Nat.leb_gt _ _)) by lia. rewrite (proj2 (Nat.eqb_neq _ _)) by lia.
        replace (j - S i) with (S (j - S (S i))) by lia. cbn. destruct nth_error; reflexivity.
Qed.

Lemma last_at_kw k ps : forall i, last_at (PStr k) (slots i ps) = keyword_value k ps.
Proof.
  induction ps as [|p ps IH]; intros i; [reflexivity|].
  destruct p; cbn [slots last_at keyword_value argpos_eqb]; rewrite IH;
    destruct (keyword_value k ps); try reflexivity; cbn; destruct (beq k keyword); reflexivity.
Qed.

Lemma last_at_given pos ps : last_at pos (slots 0 ps) = given pos ps.
Proof.
  destruct pos as [j|k]; [|apply last_at_kw].
  rewrite last_at_num. destruct j as [|j]; [reflexivity|]. cbn [Nat.leb given].
  replace (S j - 1) with j by lia. reflexivity.
Qed.

Lemma last_at_in pos l n : last_at pos l = Some n -> exists p, In (pos, p) l /\ n = meant p.
Proof.
  induction l as [|[q p] l IH]; cbn; [discriminate|].
  destruct (last_at pos l) as [x|] eqn:L.
  - intros H. inversion H; subst. destruct (IH eq_refl) as [p' [I Q]]. eauto.
  - destruct (argpos_eqb pos q) eqn:Q; [|discriminate]. intros H. inversion H; subst.
    apply argpos_eqb_eq in Q. subst. eauto.
Qed.

Lemma last_at_some pos l p : In (pos, p) l -> last_at pos l <> None.
Proof.
  induction l as [|[q p'] l IH]; cbn; [contradiction|]. intros [H|H].
  - inversion H; subst. destruct (last_at pos l); [discriminate|].
    rewrite (proj2 (argpos_eqb_eq pos pos) eq_refl). discriminate.
  - specialize (IH H). destruct (last_at pos l); [discriminate|congruence].
Qed.

(** ** Counting mandatory arguments *)

Lemma counted_enough rs l :
  well_formed rs ->
  (forall r, In r (patterns rs) -> is_mandatory (r_arg r) = true ->
     exists pos p, In pos (r_pos r) /\ In (pos, p) l) ->
  count_mandatory rs <= counted rs l.
Proof.
  intros W H. unfold count_mandatory.
  (* the rules found, in order *)
  set (found := flat_map (fun '(pos, _) =>
    match find (rule_matches pos) (patterns rs) with
    | Some r => if is_mandatory (r_arg r) then [r] else [] | None => [] end) l).
  assert (C : counted rs l = length found).
  { subst found. clear H. induction l as [|[pos p] l IH]; [reflexivity|]. cbn [counted flat_map].
    rewrite app_length, <- IH. destruct (find _ _) as [r|]; [|reflexivity].
    destruct (is_mandatory _); reflexivity. }
  rewrite C. apply NoDup_incl_length.
  - (* distinct rules *)
    apply NoDup_filter. destruct W as [N Ne]. clear -N Ne.
    induction (patterns rs) as [|r rl IH]; [constructor|]. inversion Ne; subst. constructor.
    + intros I. destruct (r_pos r) as [|q qs] eqn:Q; [congruence|].
      cbn in N. rewrite Q in N. inversion N; subst. apply H3. apply in_or_app. right.
      apply in_flat_map. exists r. split; [exact I|]. rewrite Q. left. reflexivity.
    + apply IH; [|exact H2]. cbn in N. clear -N. induction (r_pos r); [exact N|]. inversion N; auto.
  - intros r I. apply filter_In in I as [I M]. destruct (H r I M) as [pos [p [P L]]].
    subst found. apply in_flat_map. exists (pos, p). split; [exact L|].
    pose proof (find_rule rs pos W) as F. destruct (find _ _) as [r'|].
    + assert (r' = r) by (eapply rule_unique; eauto; split; assumption). subst.
      rewrite M. left. reflexivity.
    + exfalso. apply (F r). split; assumption.
Qed.

(** ** Conversion *)

Lemma convert_fits t n : fits t n -> exists v, convert t n = Ok v /\ represents t n v.
Proof.
  destruct t; intros F.
  6: { apply fits_list in F as [ns [st [ew [es [w [-> _]]]]]]. cbn. eauto. }
  6: { cbn. eauto. }
  all: destruct F as [[a F] _]; repeat match type of F with _ \/ _ => destruct F as [F|F] end;
    subst; cbn; eauto.
Qed.

Lemma represents_fun t n v v' : represents t n v -> represents t n v' -> v = v'.
Proof.
  destruct t; cbn; try congruence;
    intros [x [H ->]] [y [H' ->]]; rewrite H in H'; inversion H'; reflexivity.
Qed.

(** ** The generated block *)

Lemma accepted_iff rs ps : well_formed rs ->
  accepted rs ps <->
  Forall (one_fits rs) (slots 0 ps) /\
  (forall pos r t, rule_for rs pos r -> r_arg r = Mandatory t -> given pos ps <> None).
Proof.
  intros W. unfold accepted. rewrite Forall_forall. split.
  - intros [A [B C]]. split; [|exact C]. intros [pos p] I. unfold one_fits. cbn [fst snd].
    pose proof (find_rule rs pos W) as F. destruct (find _ _); eauto.
  - intros [A C]. split; [|split; [|exact C]].
    + intros pos p r I R. specialize (A _ I). unfold one_fits in A. cbn [fst snd] in A.
      pose proof (find_rule rs pos W) as F. destruct (find _ _) as [r'|].
      * assert (r' = r) by (eapply rule_unique; eauto). subst. exact A.
      * exfalso. exact (F r R).
    + intros pos p I R. specialize (A _ I). unfold one_fits in A. cbn [fst snd] in A.
      pose proof (find_rule rs pos W) as F. destruct (find _ _) as [r'|]; [|exact A].
      exfalso. exact (R _ F).
Qed.

Lemma arg_at_app pos l l' :
  arg_at pos (l ++ l') = match arg_at pos l with Some v => Some v | None => arg_at pos l' end.
Proof.
  induction l as [|[q v] l IH]; [reflexivity|]. cbn. destruct argpos_eqb; [reflexivity|exact IH].
Qed.

Lemma extract_all (call : node) (p : parsed) (g : argpos -> option node) (l : list (arg * argpos)) :
  (forall a pos, In (a, pos) l -> get_param p pos = g pos) ->
  (forall a pos n, In (a, pos) l -> g pos = Some n -> fits (argtype_of a) n) ->
  NoDup (map snd l) ->
  ((forall a pos, In (a, pos) l -> is_mandatory a = true -> g pos <> None) ->
   exists xs, mapr (fun '(a, pos) => extract_one call p a pos) l = Ok xs /\
     (forall pos, (forall a, ~ In (a, pos) l) -> arg_at pos (concat xs) = None) /\
     (forall a pos, In (a, pos) l ->
       match g pos with
       | None => arg_at pos (concat xs) = None
       | Some n => exists v, arg_at pos (concat xs) = Some v /\ represents (argtype_of a) n v
       end)) /\
  (~ (forall a pos, In (a, pos) l -> is_mandatory a = true -> g pos <> None) ->
   exists e, mapr (fun '(a, pos) => extract_one call p a pos) l = Err e).
Proof.
  induction l as [|[a pos] l IH]; intros G T N.
  { split; [|intros H; destruct H; intros; contradiction]. intros _. exists [].
    split; [reflexivity|]. split; [reflexivity|]. intros; contradiction. }
  inversion N; subst.
  destruct (IH (fun a' q I => G a' q (or_intror I)) (fun a' q n I => T a' q n (or_intror I)) H2)
    as [IH1 IH2]. clear IH.
  assert (E1 : extract_one call p a pos =
    match g pos with
    | Some n => let* v := convert (argtype_of a) n in Ok [(pos, v)]
    | None => if is_mandatory a then Err (EErr EArgMissing (node_site call)) else Ok []
    end).
  { unfold extract_one. rewrite (G a pos) by (left; reflexivity). reflexivity. }
  assert (P1 : forall a', ~ In (a', pos) l).
  { intros a' I. apply H1. change pos with (snd (a', pos)). apply in_map. exact I. }
  cbn [mapr]. rewrite E1.
  destruct (g pos) as [n|] eqn:Gp.
  - destruct (convert_fits (argtype_of a) n) as [v [Cv Rv]].
    { apply T with (pos := pos); [left; reflexivity|exact Gp]. }
    rewrite Cv. cbn [bind]. split.
    + intros M. destruct IH1 as [xs [X1 [X2 X3]]].
      { intros a' q I. apply M. right. exact I. }
      rewrite X1. cbn [bind]. exists ([(pos, v)] :: xs). split; [reflexivity|]. split.
      * intros q Hq. cbn [concat app arg_at]. destruct (argpos_eqb q pos) eqn:Q.
        -- apply argpos_eqb_eq in Q. subst. exfalso. apply (Hq a). left. reflexivity.
        -- apply X2. intros a' I. apply (Hq a'). right. exact I.
      * intros a' q [I|I].
        -- inversion I; subst. rewrite Gp. exists v. split; [|exact Rv].
           cbn. rewrite (proj2 (argpos_eqb_eq q q) eq_refl). reflexivity.
        -- cbn [concat app arg_at]. destruct (argpos_eqb q pos) eqn:Q; [|apply X3, I].
           apply argpos_eqb_eq in Q. subst. exfalso. exact (P1 _ I).
    + intros M. destruct IH2 as [e X].
      { intros M'. apply M. intros a' q [I|I]; [|apply M', I]. inversion I; subst. congruence. }
      rewrite X. cbn. eauto.
  - destruct (is_mandatory a) eqn:Ma.
    + cbn [bind]. split; [|eauto]. intros M. exfalso.
      apply (M a pos); [left; reflexivity|exact Ma|exact Gp].
    + cbn [bind]. split.
      * intros M. destruct IH1 as [xs [X1 [X2 X3]]].
        { intros a' q I. apply M. right. exact I. }
        rewrite X1. cbn [bind]. exists ([] :: xs). split; [reflexivity|]. cbn [concat app]. split.
        -- intros q Hq. apply X2. intros a' I. apply (Hq a'). right. exact I.
        -- intros a' q [I|I]; [|apply X3, I]. inversion I; subst. rewrite Gp. apply X2, P1.
      * intros M. destruct IH2 as [e X].
        { intros M'. apply M. intros a' q [I|I]; [|apply M', I]. inversion I; subst. congruence. }
        rewrite X. cbn. eauto.
Qed.

Lemma in_table rs a pos :
  In (a, pos) (flat_map (fun r => map (pair (r_arg r)) (r_pos r)) (patterns rs)) <->
  exists r, rule_for rs pos r /\ r_arg r = a.
Proof.
  rewrite in_flat_map. split.
  - intros [r [I M]]. apply in_map_iff in M as [q [Q P]]. inversion Q; subst.
    exists r. split; [split; assumption|reflexivity].
  - intros [r [[I P] <-]]. exists r. split; [exact I|]. apply in_map. exact P.
Qed.

Lemma table_nodup rs : map snd (flat_map (fun r => map (pair (r_arg r)) (r_pos r)) (patterns rs))
  = flat_map r_pos (patterns rs).
Proof.
  induction (patterns rs) as [|r l IH]; [reflexivity|]. cbn. rewrite map_app, IH, map_map. cbn.
  rewrite map_id. reflexivity.
Qed.

Lemma mapr_represents t ns : Forall (fits t) ns ->
  exists vs, mapr (convert t) ns = Ok vs /\ Forall2 (represents t) ns vs.
Proof.
  induction 1 as [|n ns F _ [vs [M R]]]; [exists []; split; [reflexivity|constructor]|].
  destruct (convert_fits t n F) as [v [C Rv]]. exists (v :: vs). cbn. rewrite C, M. cbn.
  split; [reflexivity|constructor; assumption].
Qed.

(** [one_fits] is decidable. *)
Lemma fits_dec t n : fits t n \/ ~ fits t n.
Proof.
  destruct (tame_check t n) as [[[] C]|[e C]].
  - left. apply check_iff, C.
  - right. intros F. apply check_iff in F. congruence.
Qed.

Lemma all_fit_dec rs l : Forall (one_fits rs) l \/ ~ Forall (one_fits rs) l.
Proof.
  induction l as [|[pos p] l IH]; [left; constructor|]. rewrite Forall_cons_iff.
  assert (one_fits rs (pos, p) \/ ~ one_fits rs (pos, p)); [|tauto].
  unfold one_fits. cbn [fst snd]. destruct (find _ _) as [r|]; [apply fits_dec|].
  destruct (trailing rs) as [t|]; [|right; intros [t [? _]]; discriminate].
  destruct (fits_dec t p) as [F|F]; [left; eauto|right]. intros [t' [Q H]]. congruence.
Qed.

Lemma mandatory_dec rs ps :
  (forall pos r t, rule_for rs pos r -> r_arg r = Mandatory t -> given pos ps <> None) \/
  ~ (forall pos r t, rule_for rs pos r -> r_arg r = Mandatory t -> given pos ps <> None).
Proof.
  destruct (forallb (fun '(a, pos) => negb (is_mandatory a) || is_some (given pos ps))
    (flat_map (fun r => map (pair (r_arg r)) (r_pos r)) (patterns rs))) eqn:F.
  - left. rewrite forallb_forall in F. intros pos r t R A G.
    specialize (F (r_arg r, pos)). rewrite in_table in F.
    specialize (F (ex_intro _ r (conj R eq_refl))). cbn in F. rewrite A, G in F. discriminate.
  - right. intros H. rewrite <- Bool.not_true_iff_false, forallb_forall in F. apply F.
    intros [a pos] I. apply in_table in I as [r [R <-]].
    destruct (r_arg r) as [t|t] eqn:A; [|reflexivity]. cbn.
    specialize (H pos r t R A). destruct (given pos ps); [reflexivity|congruence].
Qed.

Lemma accepted_dec rs ps : well_formed rs -> accepted rs ps \/ ~ accepted rs ps.
Proof.
  intros W. rewrite (accepted_iff rs ps W).
  destruct (all_fit_dec rs (slots 0 ps)), (mandatory_dec rs ps); tauto.
Qed.

Lemma arguments_spec rs call ps :
  well_formed rs ->
  (accepted rs ps -> exists x, arguments rs call ps = Ok x /\ fields_ok rs ps x) /\
  (~ accepted rs ps -> exists e, arguments rs call ps = Err e).
Proof.
  intros W. rewrite (accepted_iff rs ps W).
  unfold arguments, parse_args.
  destruct (parse_params_iff rs ps 0 0 (Parsed [] [] [])) as [P1 P2].
  destruct (all_fit_dec rs (slots 0 ps)) as [F|F].
  2: { split; [tauto|]. intros _. destruct (P2 F) as [e ->]. cbn. eauto. }
  rewrite (P1 F). clear P1 P2. cbn [bind]. rewrite Nat.add_0_r.
  set (p := gather rs (slots 0 ps) (Parsed [] [] [])).
  assert (G : forall pos r, rule_for rs pos r -> get_param p pos = given pos ps).
  { intros pos r R. unfold p. rewrite (gather_get rs pos r _ R), last_at_given.
    destruct (given pos ps); [reflexivity|]. destruct pos; reflexivity. }
  assert (T : forall pos r n, rule_for rs pos r -> given pos ps = Some n ->
                fits (argtype_of (r_arg r)) n).
  { intros pos r n R H. rewrite <- last_at_given in H. apply last_at_in in H as [q [I ->]].
    rewrite Forall_forall in F. specialize (F _ I). unfold one_fits in F. cbn [fst snd] in F.
    pose proof (find_rule rs pos W) as FR. destruct (find _ _) as [r'|].
    - assert (r' = r) by (eapply rule_unique; eauto). subst. exact F.
    - exfalso. exact (FR r R). }
  destruct (extract_all call p (fun pos => given pos ps)
    (flat_map (fun r => map (pair (r_arg r)) (r_pos r)) (patterns rs))) as [X1 X2].
  { intros a pos I. apply in_table in I as [r [R <-]]. eapply G, R. }
  { intros a pos n I H. apply in_table in I as [r [R <-]]. eapply T; eauto. }
  { rewrite table_nodup. apply W. }
  assert (MM : (forall a pos, In (a, pos) (flat_map (fun r => map (pair (r_arg r)) (r_pos r)) (patterns rs)) ->
                  is_mandatory a = true -> given pos ps <> None) <->
               (forall pos r t, rule_for rs pos r -> r_arg r = Mandatory t -> given pos ps <> None)).
  { split; intros M.
    - intros pos r t R A. apply (M (r_arg r)); [apply in_table; eauto|]. rewrite A. reflexivity.
    - intros a pos I Ma. apply in_table in I as [r [R <-]]. destruct (r_arg r) as [t|t] eqn:A; [|discriminate].
      eapply M; eauto. }
  split.
  - intros [_ M].
    assert (Cn : count_mandatory rs <= counted rs (slots 0 ps)).
    { apply counted_enough; [exact W|]. intros r I Ma.
      destruct W as [_ Ne]. rewrite Forall_forall in Ne. specialize (Ne r I).
      destruct (r_pos r) as [|q qs] eqn:Q; [congruence|].
      assert (R : rule_for rs q r) by (split; [exact I|rewrite Q; left; reflexivity]).
      destruct (r_arg r) as [t|t] eqn:A; [|discriminate].
      specialize (M q r t R A). rewrite <- last_at_given in M.
      destruct (last_at q (slots 0 ps)) as [n|] eqn:L; [|congruence].
      apply last_at_in in L as [p' [I' _]]. exists q, p'. split; [left; reflexivity|exact I']. }
    rewrite (proj2 (Nat.ltb_ge _ _)) by exact Cn. cbn [bind].
    destruct X1 as [xs [E1 [_ E3]]]; [apply MM, M|]. rewrite E1. cbn [bind].
    assert (S1 : p_rest p = surplus rs ps).
    { unfold p. rewrite gather_rest. reflexivity. }
    assert (Fs : forall t, trailing rs = Some t -> Forall (fits t) (surplus rs ps)).
    { intros t Ht. unfold surplus. apply Forall_forall. intros n I.
      apply in_map_iff in I as [[pos q] [<- I]]. apply filter_In in I as [I Hr].
      rewrite Forall_forall in F. specialize (F _ I). unfold one_fits in F. cbn [fst snd] in *.
      pose proof (find_rule rs pos W) as FR. destruct (find _ _) as [r'|].
      - exfalso. apply negb_true_iff in Hr. rewrite <- Bool.not_true_iff_false, has_rule_iff in Hr. eauto.
      - destruct F as [t' [Q H]]. congruence. }
    assert (Rest : exists vs, (match trailing rs with
              | Some t => mapr (convert t) (p_rest p) | None => Ok [] end) = Ok vs /\
              match trailing rs with
              | Some t => Forall2 (represents t) (surplus rs ps) vs | None => vs = [] end).
    { rewrite S1. destruct (trailing rs) as [t|]; [|eauto]. apply mapr_represents, Fs. reflexivity. }
    destruct Rest as [vs [Q R]]. rewrite Q. cbn [bind]. eexists. split; [reflexivity|].
    split; cbn [x_args x_rest]; [|exact R].
    intros pos r Rr. specialize (E3 (r_arg r) pos). rewrite in_table in E3.
    exact (E3 (ex_intro _ r (conj Rr eq_refl))).
  - intros M. destruct (_ <? _); [cbn; eauto|]. cbn [bind].
    destruct X2 as [e ->]; [rewrite MM; tauto|]. cbn. eauto.
Qed.

Lemma arguments_ok rs call ps x :
  well_formed rs -> arguments rs call ps = Ok x -> accepted rs ps /\ fields_ok rs ps x.
Proof.
  intros W H. destruct (arguments_spec rs call ps W) as [A B].
  destruct (accepted_dec rs ps W) as [D|D].
  - split; [exact D|]. destruct (A D) as [x' [H' F]]. rewrite H in H'. inversion H'; subst. exact F.
  - destruct (B D) as [e H']. congruence.
Qed.

Lemma tame_arguments rs call ps : well_formed rs -> tame (arguments rs call ps).
Proof.
  intros W. destruct (arguments_spec rs call ps W) as [A B].
  destruct (accepted_dec rs ps W) as [D|D].
  - destruct (A D) as [x [-> _]]. apply tame_ok.
  - destruct (B D) as [e ->]. apply tame_err.
Qed.
