(** * Proofs about pattern binding *)

From Coq Require Import String List Ascii Bool Arith Lia Permutation.
From Verif Require Import Text Res Ast Args Env Scope State Bind Spec_args Spec_bind
  Proofs_text Proofs_ast Proofs_args.
Import ListNotations.

(** ** Keyword maps *)

Definition inserts (l acc : list (bytes * node)) : list (bytes * node) :=
  fold_left (fun acc '(k, n) => named_insert k n acc) l acc.

(** Keyword nodes as entries: the whole node, or its value only. *)
Definition rpairs (ns : list node) : list (bytes * node) :=
  flat_map (fun n => match n with Attr k _ _ _ => [(k, n)] | _ => [] end) ns.
Definition lpairs (ns : list node) : list (bytes * node) :=
  flat_map (fun n => match n with Attr k v _ _ => [(k, v)] | _ => [] end) ns.

Fixpoint last_assoc (k : bytes) (l : list (bytes * node)) : option node :=
  match l with
  | [] => None
  | (j, n) :: l' => match last_assoc k l' with
                    | Some x => Some x
                    | None => if beq k j then Some n else None
                    end
  end.

Lemma assoc_insert k k' n l :
  assoc k (named_insert k' n l) = if beq k k' then Some n else assoc k l.
Proof.
  induction l as [|[j m] l IH]; cbn.
  - destruct (beq k k'); reflexivity.
  - destruct (beq k' j) eqn:J; cbn.
    + apply beq_eq in J. subst j. destruct (beq k k'); reflexivity.
    + rewrite IH. destruct (beq k k') eqn:K; [|reflexivity].
      apply beq_eq in K. subst. rewrite J. reflexivity.
Qed.

Lemma insert_keys k n l x : In x (map fst (named_insert k n l)) <-> x = k \/ In x (map fst l).
Proof.
  induction l as [|[j m] l IH]; cbn; [intuition|].
  destruct (beq k j) eqn:J; cbn.
  - apply beq_eq in J. subst. intuition.
  - rewrite IH. intuition.
Qed.

Lemma insert_nodup k n l : NoDup (map fst l) -> NoDup (map fst (named_insert k n l)).
Proof.
  induction l as [|[j m] l IH]; cbn; intros N; [repeat constructor; auto|].
  inversion N; subst. destruct (beq k j) eqn:J; cbn.
  - apply beq_eq in J. subst. constructor; assumption.
  - constructor; [|auto]. rewrite insert_keys. apply beq_neq in J. intuition.
Qed.

Lemma inserts_nodup l : forall acc, NoDup (map fst acc) -> NoDup (map fst (inserts l acc)).
Proof.
  induction l as [|[k n] l IH]; intros acc N; [exact N|]. cbn. apply IH, insert_nodup, N.
Qed.

Lemma assoc_inserts k l : forall acc,
  assoc k (inserts l acc) = match last_assoc k l with Some n => Some n | None => assoc k acc end.
Proof.
  induction l as [|[j n] l IH]; intros acc; [reflexivity|].
  change (inserts ((j, n) :: l) acc) with (inserts l (named_insert j n acc)).
  rewrite IH. cbn [last_assoc]. destruct (last_assoc k l); [reflexivity|].
  rewrite assoc_insert. destruct (beq k j); reflexivity.
Qed.

Lemma assoc_in {A} k (n : A) l : assoc k l = Some n -> In (k, n) l.
Proof.
  induction l as [|[j m] l IH]; cbn; [discriminate|]. destruct (beq k j) eqn:J.
  - apply beq_eq in J. subst. intros H. inversion H. auto.
  - auto.
Qed.

Lemma in_assoc {A} k (n : A) l : NoDup (map fst l) -> In (k, n) l -> assoc k l = Some n.
Proof.
  induction l as [|[j m] l IH]; cbn; intros N I; [contradiction|]. inversion N; subst.
  destruct I as [I|I].
  - inversion I; subst. rewrite beq_refl. reflexivity.
  - destruct (beq k j) eqn:J; [|auto]. apply beq_eq in J. subst. exfalso. apply H1.
    change j with (fst (j, n)). apply in_map, I.
Qed.

Lemma assoc_none {A} k (l : list (bytes * A)) : assoc k l = None <-> ~ In k (map fst l).
Proof.
  induction l as [|[j m] l IH]; cbn; [tauto|]. destruct (beq k j) eqn:J.
  - apply beq_eq in J. subst. split; [discriminate|tauto].
  - apply beq_neq in J. rewrite IH. intuition.
Qed.

Lemma last_rpairs k ns :
  match last_assoc k (rpairs ns) with
  | Some n => exists v st w, n = Attr k v st w /\ keyword_value k ns = Some v
  | None => keyword_value k ns = None
  end.
Proof.
  induction ns as [|n ns IH]; [reflexivity|].
  destruct n; cbn [rpairs flat_map app keyword_value];
    try (fold (rpairs ns); destruct (last_assoc k (rpairs ns)) as [m|];
         [destruct IH as [v [st' [w [-> K]]]]; exists v, st', w; rewrite K; auto | rewrite IH; reflexivity]).
  fold (rpairs ns). cbn [last_assoc]. destruct (last_assoc k (rpairs ns)) as [m|].
  - destruct IH as [v [st' [w [-> K]]]]. exists v, st', w. rewrite K. auto.
  - rewrite IH. destruct (beq k keyword) eqn:J; [|reflexivity]. apply beq_eq in J. subst. eauto 6.
Qed.

Lemma last_lpairs k ns : last_assoc k (lpairs ns) = keyword_value k ns.
Proof.
  induction ns as [|n ns IH]; [reflexivity|].
  destruct n; cbn [lpairs flat_map app keyword_value]; fold (lpairs ns); cbn [last_assoc];
    rewrite IH; destruct (keyword_value k ns); reflexivity.
Qed.

Definition key_of (n : node) : bytes := match n with Attr k _ _ _ => k | _ => [] end.

Lemma in_final n ns :
  In n (final_attrs ns) <-> exists k v st w, n = Attr k v st w /\ last_assoc k (rpairs ns) = Some n.
Proof.
  induction ns as [|m ns IH].
  { cbn. split; [contradiction|]. intros [k [v [st [w [_ H]]]]]. discriminate. }
  destruct m; cbn [final_attrs rpairs flat_map app]; fold (rpairs ns); try exact IH.
  cbn [last_assoc]. pose proof (last_rpairs keyword ns) as L.
  destruct (last_assoc keyword (rpairs ns)) as [x|] eqn:La.
  - destruct L as [v [st' [w [-> K]]]]. rewrite K. cbn [is_some]. rewrite IH. split.
    + intros [k [v' [st2 [w' [-> H]]]]]. exists k, v', st2, w'. rewrite H. auto.
    + intros [k [v' [st2 [w' [-> H]]]]]. exists k, v', st2, w'. split; [reflexivity|].
      destruct (last_assoc k (rpairs ns)) eqn:Q; [exact H|].
      destruct (beq k keyword) eqn:J; [|discriminate]. apply beq_eq in J. congruence.
  - rewrite L. cbn [is_some In]. rewrite IH. split.
    + intros [<-|[k [v' [st2 [w' [-> H]]]]]].
      * exists keyword, m, st, ws. rewrite La, beq_refl. auto.
      * exists k, v', st2, w'. rewrite H. auto.
    + intros [k [v' [st2 [w' [-> H]]]]].
      destruct (last_assoc k (rpairs ns)) eqn:Q; [right; exists k, v', st2, w'; rewrite Q, H; auto|].
      destruct (beq k keyword) eqn:J; [|discriminate]. left. congruence.
Qed.

Lemma final_nodup ns : NoDup (map key_of (final_attrs ns)).
Proof.
  induction ns as [|m ns IH]; [constructor|]. destruct m; cbn [final_attrs]; try exact IH.
  destruct (keyword_value keyword ns) eqn:K; cbn [is_some]; [exact IH|]. cbn [map key_of].
  constructor; [|exact IH]. intros I. apply in_map_iff in I as [n [Q I]].
  apply in_final in I as [k [v [st' [w [-> H]]]]]. cbn in Q. subst.
  pose proof (last_rpairs keyword ns) as L. rewrite H in L. destruct L as [? [? [? [_ L]]]]. congruence.
Qed.

Lemma nodup_map {A B} (f : A -> B) l : NoDup (map f l) -> NoDup l.
Proof. apply NoDup_map_inv. Qed.

Lemma rmap_perm ns :
  Permutation (inserts (rpairs ns) []) (map (fun n => (key_of n, n)) (final_attrs ns)).
Proof.
  assert (N : NoDup (map fst (inserts (rpairs ns) []))) by (apply inserts_nodup; constructor).
  apply NoDup_Permutation.
  - apply (nodup_map fst), N.
  - apply (nodup_map fst). rewrite map_map. cbn. apply final_nodup.
  - intros [k n]. split.
    + intros I. apply in_assoc in I; [|exact N]. rewrite assoc_inserts in I.
      destruct (last_assoc k (rpairs ns)) as [m|] eqn:L; [|discriminate]. inversion I; subst.
      pose proof (last_rpairs k ns) as La. rewrite L in La. destruct La as [v [st [w [-> K]]]].
      apply in_map_iff. exists (Attr k v st w). split; [reflexivity|]. apply in_final.
      exists k, v, st, w. auto.
    + intros I. apply in_map_iff in I as [m [Q I]]. inversion Q; subst.
      apply in_final in I as [k [v [st [w [-> H]]]]]. apply assoc_in. rewrite assoc_inserts. cbn.
      rewrite H. reflexivity.
Qed.

Lemma lmap_perm ns :
  Permutation (inserts (lpairs ns) []) (map (fun n => (key_of n, meant n)) (final_attrs ns)).
Proof.
  assert (N : NoDup (map fst (inserts (lpairs ns) []))) by (apply inserts_nodup; constructor).
  apply NoDup_Permutation.
  - apply (nodup_map fst), N.
  - apply (nodup_map fst). rewrite map_map. cbn. apply final_nodup.
  - intros [k n]. split.
    + intros I. apply in_assoc in I; [|exact N]. rewrite assoc_inserts, last_lpairs in I.
      destruct (keyword_value k ns) as [m|] eqn:L; [|discriminate]. inversion I; subst.
      pose proof (last_rpairs k ns) as La. rewrite L in La.
      destruct (last_assoc k (rpairs ns)) as [x|] eqn:LL; [|discriminate].
      destruct La as [v [st [w [-> K]]]]. inversion K; subst.
      apply in_map_iff. exists (Attr k v st w). split; [reflexivity|]. apply in_final.
      exists k, v, st, w. auto.
    + intros I. apply in_map_iff in I as [m [Q I]]. inversion Q; subst.
      apply in_final in I as [k [v [st [w [-> H]]]]]. apply assoc_in. rewrite assoc_inserts. cbn.
      rewrite last_lpairs. pose proof (last_rpairs k ns) as La. rewrite H in La.
      destruct La as [v' [st' [w' [Q' ->]]]]. inversion Q'. reflexivity.
Qed.

(** ** Reading the right-hand side *)

Lemma leftover_eq rhs : forall named,
  leftover rhs named = (positionals rhs, inserts (rpairs rhs) named).
Proof.
  induction rhs as [|n rhs IH]; intros named; [reflexivity|].
  destruct n; cbn [leftover]; rewrite IH; reflexivity.
Qed.

Lemma next_positional_eq rhs : forall named,
  match next_positional rhs named with
  | None => positionals rhs = []
  | Some (n, rhs', named') =>
      positionals rhs = n :: positionals rhs' /\
      inserts (rpairs rhs') named' = inserts (rpairs rhs) named
  end.
Proof.
  induction rhs as [|n rhs IH]; intros named; [reflexivity|].
  destruct n; cbn [next_positional]; try (split; reflexivity). exact (IH _).
Qed.

(** ** Assignments *)

Lemma assign_app l l' d : assign (l ++ l') d = assign l' (assign l d).
Proof. apply fold_left_app. Qed.

Lemma get_assign k l : forall d,
  get k (assign l d) =
  match find (fun '(j, _) => beq k j) (rev l) with
  | Some (_, body) => Some (variable body)
  | None => get k d
  end.
Proof.
  induction l as [|[j body] l IH]; intros d; [reflexivity|].
  cbn [rev assign fold_left]. change (fold_left _ l ?x) with (assign l x). rewrite IH.
  assert (F : forall f (x y : list (bytes * list node)),
    find f (x ++ y) = match find f x with Some z => Some z | None => find f y end).
  { intros f x y. induction x as [|z x IHx]; [reflexivity|]. cbn. destruct (f z); [reflexivity|exact IHx]. }
  rewrite F. destruct (find _ (rev l)) as [[? ?]|]; [reflexivity|]. cbn.
  destruct (beq k j) eqn:J.
  - apply beq_eq in J. subst. apply get_put_same.
  - apply beq_neq in J. apply get_put_other, J.
Qed.

Lemma put_comm k k' m m' d : k <> k' -> put k m (put k' m' d) = put k' m' (put k m d).
Proof.
  intros N. apply scope_ext. intros j.
  destruct (beq j k) eqn:J; [apply beq_eq in J; subst|apply beq_neq in J].
  - rewrite get_put_same, (get_put_other _ _ _ _ N), get_put_same. reflexivity.
  - rewrite (get_put_other _ k) by exact J.
    destruct (beq j k') eqn:J'; [apply beq_eq in J'; subst|apply beq_neq in J'].
    + rewrite !get_put_same. reflexivity.
    + rewrite !get_put_other by assumption. reflexivity.
Qed.

(** Assignments to distinct names may be made in any order. *)
Lemma assign_perm l l' : Permutation l l' -> NoDup (map fst l) -> forall d, assign l d = assign l' d.
Proof.
  induction 1 as [|[k x] l l' P IH|[k x] [k' x'] l|l l' l'' P1 IH1 P2 IH2]; intros N d.
  - reflexivity.
  - inversion N; subst. cbn. apply IH. assumption.
  - inversion N; subst. cbn. unfold assign. f_equal. apply put_comm.
    intros ->. apply H1. left. reflexivity.
  - rewrite IH1 by exact N. apply IH2. eapply Permutation_NoDup; [|exact N].
    apply Permutation_map, P1.
Qed.

Lemma same_effects_refl s : same_effects s s.
Proof. repeat split. Qed.
Lemma same_effects_trans s1 s2 s3 : same_effects s1 s2 -> same_effects s2 s3 -> same_effects s1 s3.
Proof. intros [A [B [C [D F]]]] [A' [B' [C' [D' F']]]]. repeat split; congruence. Qed.
Lemma same_put_var k body s : same_effects s (put_var k body s).
Proof. repeat split. Qed.

(** ** The loop over the parameters *)

Definition bind_spec (bind : node -> node -> state -> res state) (p : node) : Prop :=
  (forall v s s', bind p v s = Ok s' ->
     exists l, binds p v l /\ x_defs s' = assign l (x_defs s) /\ same_effects s s') /\
  (forall v l s, binds p v l -> exists s', bind p v s = Ok s') /\
  (forall v s, tame (bind p v s)).

Definition opt_name (skip : nat) (o : option atom) : list bytes :=
  match o with Some a => [skipn skip (a_val a)] | None => [] end.

(** The kinds of parameter, in terms of the tests of the code. *)
Lemma param_kinds n :
  (exists k v st w, n = Attr k v st w) \/
  (is_attribute n = false /\
   ((exists a, is_rest_kw n = Some a /\ kwrest_name n = Some (skipn 2 (a_val a)) /\ rest_name n = None) \/
    (exists a, is_rest_kw n = None /\ is_rest n = Some a /\
       rest_name n = Some (skipn 1 (a_val a)) /\ kwrest_name n = None) \/
    (is_rest_kw n = None /\ is_rest n = None /\ rest_name n = None /\ kwrest_name n = None))).
Proof.
  destruct n as [a|a|a|a| |k v st w]; try (right; split; [reflexivity|]; right; right; repeat split; reflexivity).
  2: left; eauto.
  right. split; [reflexivity|].
  assert (Q1 : is_rest_kw (Sym a) = if starts_with (b "&&") (a_val a) then Some a else None) by reflexivity.
  assert (Q2 : is_rest (Sym a) = if starts_with (b "&") (a_val a) then Some a else None) by reflexivity.
  rewrite Q1, Q2. cbn [rest_name kwrest_name].
  destruct (a_val a) as [|c1 v1] eqn:A; [right; right; repeat split; reflexivity|].
  change (starts_with (b "&") (c1 :: v1)) with (ch c1 "&" && true).
  change (starts_with (b "&&") (c1 :: v1)) with
    (ch c1 "&" && match v1 with [] => false | c2 :: _ => ch c2 "&" && true end).
  destruct (ch c1 "&") eqn:C1.
  - apply Ascii.eqb_eq in C1. subst c1. destruct v1 as [|c2 v2].
    + right. left. exists a. rewrite A. repeat split; reflexivity.
    + destruct (ch c2 "&") eqn:C2; cbn [andb].
      * apply Ascii.eqb_eq in C2. subst c2. left. exists a. rewrite A. repeat split; reflexivity.
      * right. left. exists a. rewrite A. split; [reflexivity|]. split; [reflexivity|].
        destruct c2 as [[] [] [] [] [] [] [] []]; try discriminate C2; split; reflexivity.
  - right. right. split; [reflexivity|]. split; [reflexivity|].
    destruct c1 as [[] [] [] [] [] [] [] []]; try discriminate C1; split; reflexivity.
Qed.

Lemma ordinary_cons n ns :
  ordinary (n :: ns) =
  (if negb (is_attribute n) && negb (is_some (rest_name n)) && negb (is_some (kwrest_name n))
   then n :: ordinary ns else ordinary ns).
Proof. reflexivity. Qed.

Section Loop.
Variable bind : node -> node -> state -> res state.
Variable assigned : site.

Lemma bind_positional_ok pats : Forall (bind_spec bind) pats -> forall p s p' s',
  bind_positional bind assigned pats p s = Ok (p', s') ->
  exists l,
    binds_each (ordinary pats) (firstn (length (ordinary pats)) (positionals (b_rhs p))) l /\
    x_defs s' = assign l (x_defs s) /\ same_effects s s' /\
    positionals (b_rhs p') = skipn (length (ordinary pats)) (positionals (b_rhs p)) /\
    inserts (rpairs (b_rhs p')) (b_rhs_named p') = inserts (rpairs (b_rhs p)) (b_rhs_named p) /\
    b_lhs_named p' = inserts (lpairs pats) (b_lhs_named p) /\
    opt_name 1 (b_rest p') = opt_name 1 (b_rest p) ++ rest_names pats /\
    opt_name 2 (b_rest_kw p') = opt_name 2 (b_rest_kw p) ++ kwrest_names pats.
Proof.
  induction 1 as [|n pats Hn _ IH]; intros p s p' s' H.
  { cbn in H. inversion H; subst. exists []. cbn. rewrite !app_nil_r.
    split; [constructor|]. split; [reflexivity|]. split; [apply same_effects_refl|]. auto 6. }
  cbn [bind_positional] in H. rewrite ordinary_cons.
  destruct (param_kinds n) as [[k [v [st [w ->]]]] | [NA [K | [K | K]]]].
  - apply IH in H as [l H]. exists l. exact H.
  - destruct K as [a [K1 [K2 K3]]]. rewrite NA, K2, K3. cbn [negb is_some andb].
    assert (H' : match b_rest_kw p with
              | Some _ => Err (EErr EBindMultiRest (node_site n))
              | None => bind_positional bind assigned pats
                          (Progress (b_rhs p) (b_rhs_named p) (b_lhs_named p)
                                    (b_rest p) (Some a)) s
              end = Ok (p', s')).
    { rewrite K1 in H. destruct n; try discriminate; exact H. }
    clear H. destruct (b_rest_kw p) eqn:R; [discriminate|].
    apply IH in H' as [l [A [B [C [D [F [G [I J]]]]]]]].
    cbn [b_rhs b_rhs_named b_lhs_named b_rest b_rest_kw opt_name app] in *. exists l.
    assert (LP : lpairs (n :: pats) = lpairs pats) by (destruct n; try discriminate; reflexivity).
    unfold rest_names, kwrest_names. cbn [flat_map]. rewrite K2, K3, LP. auto 8.
  - destruct K as [a [K1 [K0 [K2 K3]]]]. rewrite NA, K2, K3. cbn [negb is_some andb].
    assert (H' : match b_rest p with
              | Some _ => Err (EErr EBindMultiRest (node_site n))
              | None => bind_positional bind assigned pats
                          (Progress (b_rhs p) (b_rhs_named p) (b_lhs_named p)
                                    (Some a) (b_rest_kw p)) s
              end = Ok (p', s')).
    { rewrite K1, K0 in H. destruct n; try discriminate; exact H. }
    clear H. destruct (b_rest p) eqn:R; [discriminate|].
    apply IH in H' as [l [A [B [C [D [F [G [I J]]]]]]]].
    cbn [b_rhs b_rhs_named b_lhs_named b_rest b_rest_kw opt_name app] in *. exists l.
    assert (LP : lpairs (n :: pats) = lpairs pats) by (destruct n; try discriminate; reflexivity).
    unfold rest_names, kwrest_names. cbn [flat_map]. rewrite K2, K3, LP. auto 8.
  - destruct K as [K1 [K0 [K2 K3]]]. rewrite NA, K2, K3. cbn [negb is_some andb].
    assert (H' : match next_positional (b_rhs p) (b_rhs_named p) with
              | None => Err (EErr EBindTooFew assigned)
              | Some (n1, rhs, named) =>
                  let* s := bind n n1 s in
                  bind_positional bind assigned pats
                    (Progress rhs named (b_lhs_named p) (b_rest p) (b_rest_kw p)) s
              end = Ok (p', s')).
    { rewrite K1, K0 in H. destruct n; try discriminate; exact H. }
    clear H. pose proof (next_positional_eq (b_rhs p) (b_rhs_named p)) as NP.
    destruct (next_positional (b_rhs p) (b_rhs_named p)) as [[[n1 rhs] named]|]; [|discriminate].
    destruct NP as [P1 P2]. destruct (bind n n1 s) as [s1| | | |] eqn:B1; try discriminate.
    cbn [Res.bind] in H'. destruct Hn as [Hn _]. apply Hn in B1 as [l0 [B1 [B2 B3]]].
    apply IH in H' as [l [A [B [C [D [F [G [I J]]]]]]]]. cbn [b_rhs b_rhs_named b_lhs_named b_rest b_rest_kw] in *.
    exists (l0 ++ l). rewrite P1. cbn [length firstn skipn].
    split; [constructor; assumption|]. split; [rewrite assign_app, B, B2; reflexivity|].
    split; [eapply same_effects_trans; eauto|]. split; [exact D|]. split; [congruence|].
    assert (LP : lpairs (n :: pats) = lpairs pats) by (destruct n; try discriminate; reflexivity).
    unfold rest_names, kwrest_names. cbn [flat_map]. rewrite K2, K3, LP. auto.
Qed.

Lemma bind_positional_complete pats : Forall (bind_spec bind) pats -> forall p s l,
  binds_each (ordinary pats) (firstn (length (ordinary pats)) (positionals (b_rhs p))) l ->
  length (opt_name 1 (b_rest p) ++ rest_names pats) <= 1 ->
  length (opt_name 2 (b_rest_kw p) ++ kwrest_names pats) <= 1 ->
  exists p' s', bind_positional bind assigned pats p s = Ok (p', s').
Proof.
  induction 1 as [|n pats Hn _ IH]; intros p s l B L1 L2; [cbn; eauto|].
  cbn [bind_positional]. rewrite ordinary_cons in B.
  destruct (param_kinds n) as [[k [v [st [w ->]]]] | [NA [K | [K | K]]]].
  - apply IH with (l := l); assumption.
  - destruct K as [a [K1 [K2 K3]]]. rewrite NA, K2, K3 in B. cbn [negb is_some andb] in B.
    unfold rest_names, kwrest_names in L1, L2. cbn [flat_map] in L1, L2. rewrite K2 in L2. rewrite K3 in L1.
    assert (R : b_rest_kw p = None).
    { destruct (b_rest_kw p); [cbn in L2; lia|reflexivity]. }
    assert (H' : exists p' s', bind_positional bind assigned pats
       (Progress (b_rhs p) (b_rhs_named p) (b_lhs_named p) (b_rest p) (Some a)) s = Ok (p', s')).
    { apply IH with (l := l); cbn [b_rhs b_rest b_rest_kw]; [exact B|exact L1|].
      rewrite R in L2. exact L2. }
    rewrite K1, R. destruct n; try discriminate; exact H'.
  - destruct K as [a [K1 [K0 [K2 K3]]]]. rewrite NA, K2, K3 in B. cbn [negb is_some andb] in B.
    unfold rest_names, kwrest_names in L1, L2. cbn [flat_map] in L1, L2. rewrite K2 in L1. rewrite K3 in L2.
    assert (R : b_rest p = None).
    { destruct (b_rest p); [cbn in L1; lia|reflexivity]. }
    assert (H' : exists p' s', bind_positional bind assigned pats
       (Progress (b_rhs p) (b_rhs_named p) (b_lhs_named p) (Some a) (b_rest_kw p)) s = Ok (p', s')).
    { apply IH with (l := l); cbn [b_rhs b_rest b_rest_kw]; [exact B| |exact L2].
      rewrite R in L1. exact L1. }
    rewrite K1, K0, R. destruct n; try discriminate; exact H'.
  - destruct K as [K1 [K0 [K2 K3]]]. rewrite NA, K2, K3 in B. cbn [negb is_some andb] in B.
    unfold rest_names, kwrest_names in L1, L2. cbn [flat_map] in L1, L2. rewrite K2 in L1. rewrite K3 in L2.
    pose proof (next_positional_eq (b_rhs p) (b_rhs_named p)) as NP.
    assert (H' : exists p' s', match next_positional (b_rhs p) (b_rhs_named p) with
              | None => Err (EErr EBindTooFew assigned)
              | Some (n1, rhs, named) =>
                  let* s := bind n n1 s in
                  bind_positional bind assigned pats
                    (Progress rhs named (b_lhs_named p) (b_rest p) (b_rest_kw p)) s
              end = Ok (p', s')).
    { cbn [length] in B. destruct (next_positional (b_rhs p) (b_rhs_named p)) as [[[n1 rhs] named]|].
      - destruct NP as [P1 P2]. rewrite P1 in B. cbn [firstn] in B. inversion B as [|? ? ? ? l0 l1 Bh Bt]; subst.
        destruct Hn as [_ [Hn _]]. destruct (Hn n1 l0 s Bh) as [s1 ->]. cbn [Res.bind].
        apply IH with (l := l1); assumption.
      - rewrite NP in B. cbn in B. inversion B. }
    rewrite K1, K0. destruct n; try discriminate; exact H'.
Qed.

Lemma bind_positional_tame pats : Forall (bind_spec bind) pats -> forall p s,
  tame (bind_positional bind assigned pats p s).
Proof.
  induction 1 as [|n pats Hn _ IH]; intros p s; [apply tame_ok|].
  cbn [bind_positional].
  assert (G : tame (match is_rest_kw n, is_rest n with
          | Some a, _ =>
              match b_rest_kw p with
              | Some _ => Err (EErr EBindMultiRest (node_site n))
              | None => bind_positional bind assigned pats
                          (Progress (b_rhs p) (b_rhs_named p) (b_lhs_named p)
                                    (b_rest p) (Some a)) s
              end
          | None, Some a =>
              match b_rest p with
              | Some _ => Err (EErr EBindMultiRest (node_site n))
              | None => bind_positional bind assigned pats
                          (Progress (b_rhs p) (b_rhs_named p) (b_lhs_named p)
                                    (Some a) (b_rest_kw p)) s
              end
          | None, None =>
              match next_positional (b_rhs p) (b_rhs_named p) with
              | None => Err (EErr EBindTooFew assigned)
              | Some (n1, rhs, named) =>
                  let* s := bind n n1 s in
                  bind_positional bind assigned pats
                    (Progress rhs named (b_lhs_named p) (b_rest p) (b_rest_kw p)) s
              end
          end)).
  { destruct (is_rest_kw n).
    - destruct (b_rest_kw p); [apply tame_err|apply IH].
    - destruct (is_rest n).
      + destruct (b_rest p); [apply tame_err|apply IH].
      + destruct (next_positional _ _) as [[[n1 rhs] named]|]; [|apply tame_err].
        destruct Hn as [_ [_ Hn]]. apply tame_bind; [apply Hn|]. intros s1 _. apply IH. }
  destruct n; try exact G. apply IH.
Qed.
End Loop.

(** ** Keywords and the rest *)

Section WithEnv.
Variable E : env.
Hypothesis ORDER : forall seed l, Permutation (e_order E seed l) l.

Definition kw_value (lhs rhs : list (bytes * node)) (k : bytes) : list (bytes * list node) :=
  match (match assoc k rhs with Some (Attr _ v _ _) => Some v | _ => assoc k lhs end) with
  | Some v => [(k, [v])]
  | None => []
  end.

Lemma assoc_remove {A} k k' (l : list (bytes * A)) : k <> k' ->
  assoc k (List.filter (fun '(j, _) => negb (beq k' j)) l) = assoc k l.
Proof.
  intros N. induction l as [|[j x] l IH]; [reflexivity|]. cbn.
  destruct (beq k' j) eqn:J; cbn.
  - rewrite IH. apply beq_eq in J. subst. apply beq_neq in N. rewrite N. reflexivity.
  - rewrite IH. reflexivity.
Qed.

Lemma bind_named_eq lhs keys : NoDup keys -> forall rhs s,
  bind_named keys lhs rhs s =
  (List.filter (fun '(j, _) => negb (existsb (fun k => beq k j) keys)) rhs,
   set_defs (assign (flat_map (kw_value lhs rhs) keys) (x_defs s)) s).
Proof.
  induction 1 as [|k keys N _ IH]; intros rhs s.
  { cbn. f_equal; [|destruct s; reflexivity]. induction rhs as [|[j n] rhs IHr]; [reflexivity|].
    cbn. f_equal. exact IHr. }
  cbn [bind_named]. rewrite IH. cbn [flat_map]. f_equal.
  - unfold named_remove. clear. induction rhs as [|[j n] rhs IHr]; [reflexivity|]. cbn.
    destruct (beq k j); cbn; [exact IHr|].
    destruct (existsb (fun k0 => beq k0 j) keys); cbn; rewrite IHr; reflexivity.
  - assert (Q : flat_map (kw_value lhs (named_remove k rhs)) keys = flat_map (kw_value lhs rhs) keys).
    { assert (G : forall j, In j keys -> kw_value lhs (named_remove k rhs) j = kw_value lhs rhs j).
      { intros j I. unfold kw_value, named_remove. rewrite assoc_remove; [reflexivity|].
        intros ->. contradiction. }
      clear -G. induction keys as [|j keys IHk]; [reflexivity|]. cbn.
      rewrite G by (left; reflexivity). rewrite IHk; [reflexivity|]. intros i I. apply G. right. exact I. }
    rewrite Q, assign_app.
    assert (KW : kw_value lhs rhs k =
      match (match assoc k rhs with Some (Attr _ v _ _) => Some v | _ => assoc k lhs end) with
      | Some v => [(k, [v])] | None => [] end) by reflexivity.
    rewrite KW. destruct (match assoc k rhs with Some (Attr _ v _ _) => Some v | _ => assoc k lhs end); reflexivity.
Qed.

Lemma entries_perm keys l : NoDup (map fst l) -> Permutation keys (map fst l) ->
  Permutation (entries keys l) (map snd l).
Proof.
  intros N P. unfold entries.
  transitivity (flat_map (fun k => match assoc k l with Some n => [n] | None => [] end) (map fst l)).
  - apply Permutation_flat_map. exact P.
  - assert (G : forall l', (forall k n, In (k, n) l' -> assoc k l = Some n) ->
      flat_map (fun k => match assoc k l with Some n => [n] | None => [] end) (map fst l') = map snd l').
    { clear. induction l' as [|[k n] l' IH]; intros H; [reflexivity|]. cbn.
      rewrite (H k n) by (left; reflexivity). cbn. f_equal. apply IH. intros j m I. apply H. right. exact I. }
    rewrite G; [reflexivity|]. intros k n I. apply in_assoc; assumption.
Qed.

Definition pats_of (pats vals : list node) (p : progress) : Prop :=
  positionals (b_rhs p) = skipn (length (ordinary pats)) (positionals vals) /\
  inserts (rpairs (b_rhs p)) (b_rhs_named p) = inserts (rpairs vals) [] /\
  b_lhs_named p = inserts (lpairs pats) [] /\
  opt_name 1 (b_rest p) = rest_names pats /\
  opt_name 2 (b_rest_kw p) = kwrest_names pats.

Lemma kw_perm pats vals keys :
  Permutation keys (map fst (inserts (lpairs pats) [])) ->
  Permutation (flat_map (kw_value (inserts (lpairs pats) []) (inserts (rpairs vals) [])) keys)
              (map (keyword_binding vals) (final_attrs pats)).
Proof.
  intros P.
  transitivity (flat_map (kw_value (inserts (lpairs pats) []) (inserts (rpairs vals) []))
                  (map fst (map (fun n => (key_of n, meant n)) (final_attrs pats)))).
  { apply Permutation_flat_map. etransitivity; [exact P|]. apply Permutation_map, lmap_perm. }
  rewrite map_map. cbn [fst].
  assert (G : forall ns, (forall n, In n ns -> In n (final_attrs pats)) ->
    flat_map (kw_value (inserts (lpairs pats) []) (inserts (rpairs vals) [])) (map key_of ns)
    = map (keyword_binding vals) ns).
  { induction ns as [|n ns IH]; intros H; [reflexivity|]. cbn [map flat_map].
    rewrite IH by (intros m I; apply H; right; exact I).
    assert (I : In n (final_attrs pats)) by (apply H; left; reflexivity).
    apply in_final in I as [k [v [st [w [-> L]]]]]. cbn [key_of keyword_binding].
    unfold kw_value. rewrite !assoc_inserts, last_lpairs. cbn [assoc].
    pose proof (last_rpairs k vals) as V. pose proof (last_rpairs k pats) as PV. rewrite L in PV.
    destruct PV as [v' [st' [w' [Q ->]]]]. inversion Q; subst.
    destruct (last_assoc k (rpairs vals)) as [x|].
    - destruct V as [v2 [st2 [w2 [-> ->]]]]. reflexivity.
    - rewrite V. reflexivity. }
  rewrite G by auto. reflexivity.
Qed.

Lemma surplus_perm pats vals keys :
  Permutation keys (map fst (inserts (lpairs pats) [])) ->
  Permutation
    (map snd (List.filter (fun '(j, _) => negb (existsb (fun k => beq k j) keys)) (inserts (rpairs vals) [])))
    (surplus_keywords pats vals).
Proof.
  intros P. unfold surplus_keywords.
  assert (X : forall j, existsb (fun k => beq k j) keys = is_some (keyword_value j pats)).
  { intros j. destruct (keyword_value j pats) as [v|] eqn:K; cbn [is_some].
    - apply existsb_exists. exists j. split; [|apply beq_refl]. rewrite P.
      change j with (fst (j, v)). apply in_map. apply assoc_in. rewrite assoc_inserts, last_lpairs, K.
      reflexivity.
    - apply Bool.not_true_iff_false. intros H. apply existsb_exists in H as [k [I Q]].
      apply beq_eq in Q. subst k. rewrite P in I. apply in_map_iff in I as [[j' v] [Q I]].
      cbn in Q. subst. apply in_assoc in I; [|apply inserts_nodup; constructor].
      rewrite assoc_inserts, last_lpairs, K in I. discriminate. }
  assert (FP : forall A (f : A -> bool) (l l' : list A), Permutation l l' ->
             Permutation (List.filter f l) (List.filter f l')).
  { intros A f l l' Q. induction Q as [|x l l' Q IH|x y l|]; cbn.
    - constructor.
    - destruct (f x); [constructor|]; exact IH.
    - destruct (f x), (f y); try reflexivity. constructor.
    - etransitivity; eauto. }
  transitivity (map snd (List.filter (fun '(j, _) => negb (existsb (fun k => beq k j) keys))
     (map (fun n => (key_of n, n)) (final_attrs vals)))).
  { apply Permutation_map, FP, rmap_perm. }
  assert (G : forall ns, (forall n, In n ns -> In n (final_attrs vals)) ->
    map snd (List.filter (fun '(j, _) => negb (existsb (fun k => beq k j) keys))
       (map (fun n => (key_of n, n)) ns)) =
    List.filter (fun n => match n with
                   | Attr k _ _ _ => negb (is_some (keyword_value k pats))
                   | _ => false end) ns).
  { induction ns as [|n ns IH]; intros H; [reflexivity|].
    assert (I : In n (final_attrs vals)) by (apply H; left; reflexivity).
    apply in_final in I as [k [v [st [w [-> L]]]]]. cbn. rewrite X.
    specialize (IH (fun m I => H m (or_intror I))).
    destruct (is_some (keyword_value k pats)); cbn; [exact IH|]. f_equal. exact IH. }
  rewrite G by auto. reflexivity.
Qed.

Lemma opt_name_cases skip o names : opt_name skip o = names ->
  (o = None /\ names = []) \/ (exists a, o = Some a /\ names = [skipn skip (a_val a)]).
Proof. intros <-. destruct o as [a|]; [right; eauto|left; auto]. Qed.

Lemma same_order_matters s : same_effects s (order_matters s).
Proof. repeat split. Qed.

Lemma bind_rest_ok pats vals seed p s s' :
  pats_of pats vals p -> bind_rest E seed p s = Ok s' ->
  exists l2 l3 l4 kwrest,
    one_rest (rest_names pats) (skipn (length (ordinary pats)) (positionals vals)) l2 /\
    Permutation l3 (map (keyword_binding vals) (final_attrs pats)) /\
    Permutation kwrest (surplus_keywords pats vals) /\
    one_rest (kwrest_names pats) kwrest l4 /\
    x_defs s' = assign (l2 ++ l3 ++ l4) (x_defs s) /\ same_effects s s'.
Proof.
  intros [A [B [C [D F]]]] H. unfold bind_rest in H. rewrite leftover_eq, A, B, C in H.
  set (rest := skipn (length (ordinary pats)) (positionals vals)) in *.
  set (lhs := inserts (lpairs pats) []) in *. set (rhs := inserts (rpairs vals) []) in *.
  assert (N1 : NoDup (map fst lhs)) by (apply inserts_nodup; constructor).
  assert (N2 : NoDup (map fst rhs)) by (apply inserts_nodup; constructor).
  set (keys := e_order E (S seed) (map fst lhs)) in *.
  assert (PK : Permutation keys (map fst lhs)) by apply ORDER.
  assert (NK : NoDup keys) by (eapply Permutation_NoDup; [symmetry; exact PK|exact N1]).
  assert (H1 : exists l2, one_rest (rest_names pats) rest l2 /\
    (let '(rhs_named, s) := bind_named keys lhs rhs (set_defs (assign l2 (x_defs s)) s) in
     let keys := e_order E seed (map fst rhs_named) in
     match b_rest_kw p with
     | Some a =>
         let s := if 2 <=? length rhs_named then order_matters s else s in
         Ok (put_var (skipn 2 (a_val a)) (entries keys rhs_named) s)
     | None =>
         match entries keys rhs_named with
         | [] => Ok s
         | n :: _ => Err (EErr EBindExcessKeyword (node_site n))
         end
     end) = Ok s').
  { cbv zeta in H |- *. apply opt_name_cases in D as [[R Q]|[a [R Q]]]; rewrite R in H; rewrite Q.
    - destruct (rev rest) as [|x xs] eqn:Rv; [|cbn [Res.bind] in H; discriminate H].
      assert (rest = []) by (rewrite <- (rev_involutive rest), Rv; reflexivity).
      exists []. split; [rewrite H0; constructor|]. cbn [assign fold_left].
      replace (set_defs (x_defs s) s) with s by (destruct s; reflexivity). exact H.
    - eexists. split; [constructor|]. exact H. }
  clear H. destruct H1 as [l2 [O2 H]]. rewrite (bind_named_eq lhs keys NK) in H. cbv zeta in H.
  set (left := List.filter _ rhs) in H.
  assert (NL : NoDup (map fst left)).
  { unfold left. clear -N2. induction rhs as [|[j n] l IH]; [constructor|]. inversion N2; subst. cbn.
    destruct (existsb _ keys); cbn; [auto|]. constructor; [|auto].
    intros I. apply H1. apply in_map_iff in I as [[j' m] [Q I]]. cbn in Q. subst.
    apply filter_In in I as [I _]. change j with (fst (j, m)). apply in_map, I. }
  set (l3 := flat_map (kw_value lhs rhs) keys) in H.
  set (kwrest := entries (e_order E seed (map fst left)) left) in H.
  assert (PR : Permutation kwrest (surplus_keywords pats vals)).
  { unfold kwrest. rewrite entries_perm; [|exact NL|apply ORDER]. unfold left, rhs, lhs.
    apply surplus_perm. exact PK. }
  exists l2, l3. apply opt_name_cases in F as [[R Q]|[a [R Q]]]; rewrite R in H; rewrite Q.
  - clearbody kwrest. destruct kwrest as [|x xs]; [|discriminate H]. inversion H; subst.
    exists [], []. split; [exact O2|]. split; [apply kw_perm, PK|]. split; [exact PR|].
    split; [constructor|]. split; [|repeat split]. cbn. rewrite app_nil_r, assign_app. reflexivity.
  - exists [(skipn 2 (a_val a), kwrest)], kwrest.
    split; [exact O2|]. split; [apply kw_perm, PK|]. split; [exact PR|]. split; [constructor|].
    rewrite !assign_app.
    destruct (2 <=? length left); inversion H; subst; (split; [reflexivity|repeat split]).
Qed.

Lemma bind_rest_complete pats vals seed p s l2 l4 kwrest :
  pats_of pats vals p ->
  one_rest (rest_names pats) (skipn (length (ordinary pats)) (positionals vals)) l2 ->
  Permutation kwrest (surplus_keywords pats vals) ->
  one_rest (kwrest_names pats) kwrest l4 ->
  exists s', bind_rest E seed p s = Ok s'.
Proof.
  intros [A [B [C [D F]]]] O2 PR O4. unfold bind_rest. rewrite leftover_eq, A, B, C.
  set (rest := skipn (length (ordinary pats)) (positionals vals)) in *.
  set (lhs := inserts (lpairs pats) []) in *. set (rhs := inserts (rpairs vals) []) in *.
  assert (N1 : NoDup (map fst lhs)) by (apply inserts_nodup; constructor).
  assert (N2 : NoDup (map fst rhs)) by (apply inserts_nodup; constructor).
  set (keys := e_order E (S seed) (map fst lhs)) in *.
  assert (PK : Permutation keys (map fst lhs)) by apply ORDER.
  assert (NK : NoDup keys) by (eapply Permutation_NoDup; [symmetry; exact PK|exact N1]).
  assert (H1 : exists s1, match b_rest p, rev rest with
    | Some a, _ => Ok (put_var (skipn 1 (a_val a)) rest s)
    | None, last :: _ => Err (EErr EBindExcess (node_site last))
    | None, [] => Ok s
    end = Ok s1).
  { apply opt_name_cases in D as [[R Q]|[a [R Q]]]; rewrite R; [|eauto].
    rewrite Q in O2. inversion O2. cbn. eauto. }
  destruct H1 as [s1 ->]. cbn [Res.bind]. rewrite (bind_named_eq lhs keys NK).
  set (left := List.filter _ rhs).
  assert (NL : NoDup (map fst left)).
  { unfold left. clear -N2. induction rhs as [|[j n] l IH]; [constructor|]. inversion N2; subst. cbn.
    destruct (existsb _ keys); cbn; [auto|]. constructor; [|auto].
    intros I. apply H1. apply in_map_iff in I as [[j' m] [Q I]]. cbn in Q. subst.
    apply filter_In in I as [I _]. change j with (fst (j, m)). apply in_map, I. }
  apply opt_name_cases in F as [[R Q]|[a [R Q]]]; rewrite R; [|eauto].
  assert (PE : Permutation (entries (e_order E seed (map fst left)) left) (surplus_keywords pats vals)).
  { rewrite entries_perm; [|exact NL|apply ORDER]. unfold left, rhs, lhs. apply surplus_perm. exact PK. }
  rewrite Q in O4. inversion O4; subst. apply Permutation_nil in PR. rewrite PR in PE.
  apply Permutation_sym, Permutation_nil in PE. rewrite PE. eauto.
Qed.

Lemma bind_rest_tame seed p s : tame (bind_rest E seed p s).
Proof.
  unfold bind_rest. destruct (leftover _ _) as [rest rhs]. apply tame_bind.
  - destruct (b_rest p); [apply tame_ok|]. destruct (rev rest); [apply tame_ok|apply tame_err].
  - intros s1 _. destruct (bind_named _ _ _ _) as [r2 s2]. destruct (b_rest_kw p); [apply tame_ok|].
    destruct (entries _ _); [apply tame_ok|apply tame_err].
Qed.

Lemma same_new_maps n s : same_effects s (new_maps n s).
Proof. repeat split. Qed.

Lemma bind_list_spec bind site pats :
  Forall (bind_spec bind) pats ->
  (forall vals s s', bind_list_with E bind site pats vals s = Ok s' ->
     exists l, binds_list pats vals l /\ x_defs s' = assign l (x_defs s) /\ same_effects s s') /\
  (forall vals l s, binds_list pats vals l -> exists s', bind_list_with E bind site pats vals s = Ok s') /\
  (forall vals s, tame (bind_list_with E bind site pats vals s)).
Proof.
  intros FA. split; [|split].
  - intros vals s s' H. unfold bind_list_with in H.
    destruct (bind_positional bind site pats (Progress vals [] [] None None) (new_maps 2 s))
      as [[p s1]| | | |] eqn:BP; try discriminate. cbn [Res.bind] in H.
    apply (bind_positional_ok bind site pats FA) in BP as [l1 [A [B [C [D [F [G [I J]]]]]]]].
    cbn [b_rhs b_rhs_named b_lhs_named b_rest b_rest_kw opt_name app] in *.
    apply (bind_rest_ok pats vals) in H as [l2 [l3 [l4 [kwrest [O2 [P3 [PR [O4 [Q S2]]]]]]]]];
      [|repeat split; assumption].
    exists (l1 ++ l2 ++ l3 ++ l4). split; [econstructor; eauto|].
    split.
    + rewrite Q, B, (assign_app l1). reflexivity.
    + eapply same_effects_trans; [apply same_new_maps|]. eapply same_effects_trans; eauto.
  - intros vals l s H. inversion H; subst. unfold bind_list_with.
    assert (L1 : length (rest_names pats) <= 1) by (inversion H1; cbn; lia).
    assert (L2 : length (kwrest_names pats) <= 1) by (inversion H4; cbn; lia).
    destruct (bind_positional_complete bind site pats FA (Progress vals [] [] None None)
                (new_maps 2 s) l1 H0 L1 L2) as [p [s1 BP]].
    rewrite BP. cbn [Res.bind].
    apply (bind_positional_ok bind site pats FA) in BP as [l1' [A [B [C [D [F [G [I J]]]]]]]].
    cbn [b_rhs b_rhs_named b_lhs_named b_rest b_rest_kw opt_name app] in *.
    eapply bind_rest_complete; eauto. repeat split; assumption.
  - intros vals s. unfold bind_list_with. apply tame_bind.
    + apply bind_positional_tame, FA.
    + intros [p s1] _. apply bind_rest_tame.
Qed.

Lemma bind_node_spec p : bind_spec (bind_node E) p.
Proof.
  induction p as [a|a|a|a|pats st ew es w IH|k p st w IH] using node_ind'.
  - split; [|split].
    + intros v s s' H. cbn in H. inversion H; subst. exists [(a_val a, [v])].
      split; [constructor|]. split; [reflexivity|repeat split].
    + intros v l s H. cbn. eauto.
    + intros v s. apply tame_ok.
  - split; [|split].
    + intros v s s' H. cbn in H. destruct v; try discriminate.
      destruct (beq (a_val a) (a_val a0)) eqn:Q; [|discriminate]. inversion H; subst.
      apply beq_eq in Q. exists []. split; [constructor; exact Q|]. split; [reflexivity|apply same_effects_refl].
    + intros v l s H. inversion H; subst. cbn. rewrite (proj2 (beq_eq _ _) H1). eauto.
    + intros v s. cbn. destruct v; try apply tame_err. destruct (beq _ _); [apply tame_ok|apply tame_err].
  - split; [|split].
    + intros v s s' H. cbn in H. destruct v; try discriminate;
        (destruct (beq (a_val a) (a_val a0)) eqn:Q; [|discriminate]); inversion H; subst;
        apply beq_eq in Q; exists []; (split; [constructor; exact Q|]); (split; [reflexivity|apply same_effects_refl]).
    + intros v l s H. inversion H; subst; cbn; rewrite (proj2 (beq_eq _ _) H1); eauto.
    + intros v s. cbn. destruct v; try apply tame_err; (destruct (beq _ _); [apply tame_ok|apply tame_err]).
  - split; [|split].
    + intros v s s' H. cbn in H. destruct v; try discriminate;
        (destruct (beq (a_val a) (a_val a0)) eqn:Q; [|discriminate]); inversion H; subst;
        apply beq_eq in Q; exists []; (split; [constructor; exact Q|]); (split; [reflexivity|apply same_effects_refl]).
    + intros v l s H. inversion H; subst; cbn; rewrite (proj2 (beq_eq _ _) H1); eauto.
    + intros v s. cbn. destruct v; try apply tame_err; (destruct (beq _ _); [apply tame_ok|apply tame_err]).
  - split; [|split].
    + intros v s s' H. cbn [bind_node] in H. destruct v; try discriminate.
      destruct (bind_list_spec (bind_node E) (node_site (Lst nodes st0 end_ws end_site ws)) pats IH) as [A _].
      apply A in H as [l [B H]]. exists l. split; [constructor; exact B|exact H].
    + intros v l s H. inversion H; subst. cbn [bind_node].
      destruct (bind_list_spec (bind_node E) (node_site (Lst vals st' ew' es' w')) pats IH) as [_ [A _]].
      eapply A; eauto.
    + intros v s. cbn [bind_node]. destruct v; try apply tame_err. apply bind_list_spec, IH.
  - destruct IH as [IH1 [IH2 IH3]]. split; [|split].
    + intros v s s' H. cbn [bind_node] in H. destruct v; try discriminate.
      destruct (beq k keyword) eqn:Q; [|discriminate]. apply beq_eq in Q. subst.
      apply IH1 in H as [l [B H]]. exists l. split; [constructor; exact B|exact H].
    + intros v l s H. inversion H; subst. cbn [bind_node]. rewrite beq_refl. eauto.
    + intros v s. cbn [bind_node]. destruct v; try apply tame_err. destruct (beq _ _); [apply IH3|apply tame_err].
Qed.
End WithEnv.

(** Without assumption on the hash order: binding never panics. *)
