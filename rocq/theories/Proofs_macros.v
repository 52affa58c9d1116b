(** * Consequences of the characterisations of the builtin macros *)

From Coq Require Import String List Ascii Bool Arith NArith ZArith Lia Permutation.
From Verif Require Import Text Res Ast Args Env Scope State Bind Expander Parser
  Spec_args Spec_expand Spec_builtin Spec_bind Spec_control Proofs_text Proofs_ast Proofs_run
  Proofs_eval Proofs_args Proofs_builtin Proofs_simple Proofs_bind Proofs_control Proofs_more.
Import ListNotations.

(** ** Binding *)

Section Bind.
Variable E : env.
Hypothesis ORDER : forall seed l, Permutation (e_order E seed l) l.

Lemma bind_fails st ps vs s : (forall l, ~ binds_list ps vs l) ->
  exists e, bind_list E st ps vs s = Err e.
Proof.
  intros N. destruct (bind_list_cases E ORDER st ps vs s) as [[s1 [l [_ [B _]]]] | [_ H]]; [|exact H].
  destruct (N l B).
Qed.

Lemma binds_each_length ps vs l : binds_each ps vs l -> length ps = length vs.
Proof. induction 1; cbn; congruence. Qed.

Lemma too_few st ps vs s : length (positionals vs) < length (ordinary ps) ->
  exists e, bind_list E st ps vs s = Err e.
Proof.
  intros L. apply bind_fails. intros l B. inversion B as [? ? l1 l2 l3 l4 kw B1 B2 B3 B4 B5]; subst.
  apply binds_each_length in B1. rewrite firstn_length in B1. lia.
Qed.

Lemma too_many st ps vs s : rest_names ps = [] -> length (ordinary ps) < length (positionals vs) ->
  exists e, bind_list E st ps vs s = Err e.
Proof.
  intros R L. apply bind_fails. intros l B. inversion B as [? ? l1 l2 l3 l4 kw B1 B2 B3 B4 B5]; subst.
  rewrite R in B2. inversion B2 as [H1 H2 H3|]. symmetry in H2.
  apply (f_equal (@length node)) in H2. rewrite skipn_length in H2. cbn in H2. lia.
Qed.

Lemma unknown_keyword st ps vs s : kwrest_names ps = [] -> surplus_keywords ps vs <> [] ->
  exists e, bind_list E st ps vs s = Err e.
Proof.
  intros R L. apply bind_fails. intros l B. inversion B as [? ? l1 l2 l3 l4 kw B1 B2 B3 B4 B5]; subst.
  rewrite R in B5. inversion B5; subst. apply Permutation_nil in B4. congruence.
Qed.
End Bind.

(** The variables of a pattern. *)
Lemma in_flat_names {A} (f : A -> option bytes) l k :
  In k (flat_map (fun n => match f n with Some x => [x] | None => [] end) l) <->
  exists n, In n l /\ f n = Some k.
Proof.
  rewrite in_flat_map. split; intros [n [I H]]; exists n; (split; [exact I|]).
  - destruct (f n); [destruct H as [->|[]]; reflexivity|destruct H].
  - rewrite H. left. reflexivity.
Qed.

Lemma variables_lst pats st ew es w :
  variables (Lst pats st ew es w) = flat_map param_variables pats.
Proof. reflexivity. Qed.

Lemma one_rest_names names ns l : one_rest names ns l -> map fst l = names.
Proof. destruct 1; reflexivity. Qed.

Lemma final_keys pats k :
  In k (map key_of (final_attrs pats)) <-> exists v st w, In (Attr k v st w) pats.
Proof.
  induction pats as [|p pats IH]; cbn [final_attrs].
  - split; [intros []|intros [? [? [? []]]]].
  - destruct p as [a|a|a|a|l st ew es w|k' v st w].
    1-5: rewrite IH; split; [intros [v' [st' [w' I]]]; exists v', st', w'; right; exact I
                           |intros [v' [st' [w' [Q|I]]]]; [discriminate|eauto]].
    destruct (keyword_value k' pats) as [v0|] eqn:K; cbn [is_some map].
    + rewrite IH. split; [intros [v' [st' [w' I]]]; exists v', st', w'; right; exact I|].
      intros [v' [st' [w' [Q|I]]]]; [|eauto]. inversion Q; subst.
      apply keyword_in in K as [st2 [w2 I]]. eauto.
    + cbn [key_of In]. rewrite IH. split.
      * intros [->|[v' [st' [w' I]]]]; [exists v, st, w; left; reflexivity|exists v', st', w'; right; exact I].
      * intros [v' [st' [w' [Q|I]]]]; [inversion Q; left; reflexivity|right; eauto].
Qed.

Lemma keyword_binding_key vals ns : Forall (fun n => is_attribute n = true) ns ->
  map fst (map (keyword_binding vals) ns) = map key_of ns.
Proof.
  induction 1 as [|n ns H _ IH]; [reflexivity|]. cbn. rewrite IH. destruct n; try discriminate. reflexivity.
Qed.

Lemma final_attributes ns : Forall (fun n => is_attribute n = true) (final_attrs ns).
Proof.
  induction ns as [|n ns IH]; [constructor|]. cbn. destruct n as [a|a|a|a|l st ew es w|k v st w]; try exact IH.
  destruct (is_some (keyword_value k ns)); [exact IH|constructor; [reflexivity|exact IH]].
Qed.

Lemma binds_variables :
  (forall p v l, binds p v l -> forall k, In k (map fst l) <-> In k (variables p)) /\
  (forall ps vs l, binds_list ps vs l -> forall k, In k (map fst l) <-> In k (flat_map param_variables ps)) /\
  (forall ps vs l, binds_each ps vs l -> forall k, In k (map fst l) <-> In k (flat_map variables ps)).
Proof.
  apply binds_mutind.
  - intros a v k. cbn. tauto.
  - intros; cbn; tauto.
  - intros; cbn; tauto.
  - intros; cbn; tauto.
  - intros; cbn; tauto.
  - intros; cbn; tauto.
  - intros k p st w v st' w' l B IH k'. cbn. apply IH.
  - intros pats vals st ew es w st' ew' es' w' l B IH k. rewrite variables_lst. apply IH.
  - intros pats vals l1 l2 l3 l4 kw B1 IH B2 B3 B4 B5 k.
    rewrite !map_app, !in_app_iff, IH.
    rewrite (one_rest_names _ _ _ B2), (one_rest_names _ _ _ B5).
    assert (K3 : In k (map fst l3) <-> exists v st w, In (Attr k v st w) pats).
    { rewrite <- final_keys, <- (keyword_binding_key vals) by apply final_attributes.
      split; apply Permutation_in; [|apply Permutation_sym]; apply Permutation_map, B3. }
    rewrite K3. unfold rest_names, kwrest_names. rewrite !in_flat_names, !in_flat_map.
    split.
    + intros [[n [I H]]|[[n [I H]]|[[v [st [w I]]]|[n [I H]]]]].
      * unfold ordinary in I. apply filter_In in I as [I O]. exists n. split; [exact I|].
        apply andb_true_iff in O as [O O3]. apply andb_true_iff in O as [O1 O2].
        unfold param_variables. destruct (rest_name n); [discriminate|]. destruct (kwrest_name n); [discriminate|].
        destruct n; try discriminate; exact H.
      * exists n. split; [exact I|]. unfold param_variables. rewrite H. left. reflexivity.
      * exists (Attr k v st w). split; [exact I|]. left. reflexivity.
      * exists n. split; [exact I|]. unfold param_variables. 
        destruct (rest_name n) eqn:R; [|rewrite H; left; reflexivity].
        exfalso. destruct n as [a| | | | |]; try discriminate. cbn in R, H.
        destruct (a_val a) as [|c1 [|c2 r]]; try discriminate;
          [destruct c1 as [[] [] [] [] [] [] [] []]; discriminate|].
        destruct c1 as [[] [] [] [] [] [] [] []]; try discriminate;
        destruct c2 as [[] [] [] [] [] [] [] []]; discriminate.
    + intros [n [I H]]. unfold param_variables in H.
      destruct (rest_name n) eqn:R; [destruct H as [->|[]]; right; left; eauto|].
      destruct (kwrest_name n) eqn:KR; [destruct H as [->|[]]; right; right; right; eauto|].
      destruct n as [a|a|a|a|ns st ew es w|k' v st w].
      6: { destruct H as [<-|[]]. right. right. left. eauto. }
      all: left; eexists; (split; [|exact H]); unfold ordinary; apply filter_In; (split; [exact I|]);
           rewrite R, KR; reflexivity.
  - intros k. cbn. tauto.
  - intros p ps v vs l l' B IH1 B' IH2 k. cbn. rewrite map_app, !in_app_iff, IH1, IH2. tauto.
Qed.

(** ** Definitions of the caller *)

Section Caller.
Variable E : env.
Hypothesis ORDER : forall seed l, Permutation (e_order E seed l) l.

Lemma closed_ok s q ns s' : closed s q = Ok (ns, s') ->
  exists s1, q = Ok (ns, s1) /\ s' = left_ s s1.
Proof. destruct q as [[xs s1]| | | |]; cbn; intros H; inversion H; subst. eauto. Qed.

Lemma call_keeps name args n s ns s' :
  find_builtin name = None -> is_call name args n -> eval E n s (Ok (ns, s')) ->
  exists vs s1, evals E (received args) (entered n s) (Ok (vs, s1)) /\
    x_defs s' = x_defs s1 /\ x_vec s' = x_vec s1.
Proof.
  intros F C H. apply (eval_user E ORDER name args n s _ F C) in H as [q [Q H]].
  destruct q as [[vs s1]| | | |]; cbn in H; try discriminate; try contradiction.
  exists vs, s1. split; [exact Q|]. destruct (get name (x_defs s1)) as [m|]; [|discriminate].
  inversion H as [s2 l q B V Z|]. apply closed_ok in Z as [s3 [_ ->]]. auto.
Qed.

Lemma for_keeps args n s ns s' :
  is_call (b "for") args n -> eval E n s (Ok (ns, s')) ->
  exists items vs s1, evals E items (noted n s (entered n s)) (Ok (vs, s1)) /\
    (exists p i st ew es w rest,
       positionals (received args) = p :: i :: Lst items st ew es w :: rest) /\
    x_defs s' = x_defs s1 /\ x_vec s' = x_vec s1.
Proof.
  intros C H. apply (eval_for E ORDER args n s _ C) in H.
  destruct (positionals (received args)) as [|p [|[i|i|i|i| |] [|[]]]] eqn:P;
    try (destruct H as [e [H _]]; discriminate).
  destruct (beq (a_val i) (b "in")); [|destruct H as [e [H _]]; discriminate].
  destruct H as [q [Q H]]. destruct q as [[vs s1]| | | |]; cbn in H; try discriminate; try contradiction.
  destruct H as [q1 [L Z]]. symmetry in Z. apply closed_ok in Z as [s3 [_ ->]].
  exists nodes, vs, s1. split; [exact Q|]. split; [|auto].
  exists p, (Sym i). repeat eexists.
Qed.

Lemma match_keeps v clauses s ns s' :
  matching E v clauses s (Ok (ns, s')) ->
  exists k ps s1, evals E (flat_map pattern_of (firstn k clauses)) s (Ok (ps, s1)) /\
    x_defs s' = x_defs s1 /\ x_vec s' = x_vec s1.
Proof.
  intros M. remember (Ok (ns, s')) as r eqn:R. revert R.
  induction M as [s|clause pat body clauses s p s1 r L V B M IH|clause pat body clauses s p s1 s2 l q L V B V2
                 |clause pat body clauses s q r L V Fq| |]; intros R; try discriminate.
  - inversion R; subst. exists 0, [], s'. split; [apply evals_nil; reflexivity|]. auto.
  - destruct (IH R) as [k [ps [s2 [E1 D]]]]. exists (S k), (p :: ps), s2. split; [|exact D].
    cbn [firstn flat_map]. unfold pattern_of at 1. rewrite L.
    apply (evals_cons_ok E). exists [p], s1, ps. split; [exact V|]. split; [exact E1|reflexivity].
  - apply closed_ok in R as [s3 [_ ->]]. exists 1, [p], s1. split; [|auto].
    cbn [firstn flat_map]. unfold pattern_of. rewrite L. rewrite app_nil_r. cbn [app].
    apply evals_one_ok, V.
  - subst r. destruct q; cbn in Fq; try discriminate; contradiction.
Qed.
Lemma match_call_keeps expr clauses n s ns s' :
  is_call (b "match") (expr :: clauses) n -> eval E n s (Ok (ns, s')) ->
  exists e k vs s1,
    received (expr :: clauses) = e :: clauses /\
    evals E (e :: flat_map pattern_of (firstn k clauses)) (entered n s) (Ok (vs, s1)) /\
    x_defs s' = x_defs s1.
Proof.
  intros C H. apply (eval_match E ORDER expr clauses n s _ C) in H as [e [q [R [V H]]]].
  destruct q as [[[|v [|v' vs]] s1]| | | |]; cbn in H; try discriminate; try contradiction.
  apply match_keeps in H as [k [ps [s2 [V2 [D _]]]]].
  exists e, k, (v :: ps), s2. split; [exact R|]. split; [|exact D].
  apply evals_cons_ok. exists [v], s1, ps. auto.
Qed.

Lemma bind_others st ps vs s s1 : bind_list E st ps vs s = Ok s1 ->
  forall k, ~ In k (flat_map param_variables ps) -> get k (x_defs s1) = get k (x_defs s).
Proof.
  intros H k N. destruct (bind_list_cases E ORDER st ps vs s) as [[s1' [l [H' [B [D _]]]]] | [_ [e H']]];
    rewrite H in H'; [|discriminate]. inversion H'; subst s1'.
  rewrite D. rewrite <- (proj1 (proj2 binds_variables) ps vs l B k) in N.
  revert N. generalize (x_defs s). clear. induction l as [|[k' v] l IH]; intros d N; [reflexivity|].
  cbn in N. change (assign ((k', v) :: l) d) with (assign l (put k' (variable v) d)).
  rewrite IH by tauto. apply get_put_other. intros ->. tauto.
Qed.

Lemma matching_first v clauses s ns s' :
  matching E v clauses s (Ok (ns, s')) ->
  exists k ps s1,
    evals E (flat_map pattern_of (firstn k clauses)) s (Ok (ps, s1)) /\
    length ps = k /\ Forall (fun p => forall l, ~ binds p v l) ps /\
    match nth_error clauses k with
    | None => length clauses = k /\ ns = [] /\ s' = s1
    | Some clause => exists pat body p s2 l s3 s4,
        list_of clause = Some (pat :: body) /\ eval E pat s1 (Ok ([p], s2)) /\
        bound E p v (copied s2) s3 l /\ evals E body s3 (Ok (ns, s4)) /\ s' = left_ s2 s4
    end.
Proof.
  intros M. remember (Ok (ns, s')) as r eqn:R. revert R.
  induction M as [s|clause pat body clauses s p s1 r L V B M IH|clause pat body clauses s p s1 s2 l q L V B V2
                 |clause pat body clauses s q r L V Fq| |]; intros R; try discriminate.
  - inversion R; subst. exists 0, [], s'. split; [apply evals_nil; reflexivity|]. cbn. auto.
  - destruct (IH R) as [k [ps [s2 [E1 [Len [No D]]]]]]. exists (S k), (p :: ps), s2. split.
    + cbn [firstn flat_map]. unfold pattern_of at 1. rewrite L.
      apply (evals_cons_ok E). exists [p], s1, ps. split; [exact V|]. split; [exact E1|reflexivity].
    + split; [cbn; congruence|]. split; [constructor; assumption|]. cbn [nth_error length].
      destruct (nth_error clauses k); [exact D|]. destruct D as [D1 D2]. split; [congruence|exact D2].
  - apply closed_ok in R as [s3 [Q ->]]. subst q. exists 0, [], s. split; [apply evals_nil; reflexivity|].
    split; [reflexivity|]. split; [constructor|]. cbn. exists pat, body, p, s1, l, s2, s3. auto.
  - subst r. destruct q; cbn in Fq; try discriminate; contradiction.
Qed.

Lemma looping_rounds p body items s ns s' :
  looping E p body items s (Ok (ns, s')) ->
  exists results states, ns = concat results /\
    length results = length items /\ length states = S (length items) /\
    nth_error states 0 = Some s /\ nth_error states (length items) = Some s' /\
    forall i item, nth_error items i = Some item ->
      exists out s1 s2 s3 l,
        nth_error results i = Some out /\ nth_error states i = Some s1 /\
        bound E p item s1 s2 l /\ evals E body s2 (Ok (out, s3)) /\
        nth_error states (S i) = Some s3.
Proof.
  intros L. remember (Ok (ns, s')) as r eqn:R. revert ns s' R.
  induction L as [s|i items s s1 l xs s2 q B V L IH|i items s s1 l q r B V Fq|]; intros ns s' R; try discriminate.
  - inversion R; subst. exists [], [s']. repeat (split; [reflexivity|]). intros [|i] item H; discriminate.
  - destruct q as [[ys s3]| | | |]; cbn in R; try discriminate. inversion R; subst.
    destruct (IH ys s' eq_refl) as [rs [sts [-> [Len [Len2 [S0 [SL H]]]]]]].
    exists (xs :: rs), (s :: sts). split; [reflexivity|]. split; [cbn; congruence|].
    split; [cbn; congruence|]. split; [reflexivity|]. split; [exact SL|].
    intros [|j] item J; cbn in J.
    + inversion J; subst. exists xs, s, s1, s2, l. cbn. auto.
    + destruct (H j item J) as [o [t1 [t2 [t3 [l' H']]]]]. exists o, t1, t2, t3, l'. exact H'.
  - subst r. destruct q; cbn in Fq; try discriminate; contradiction.
Qed.
End Caller.

Lemma define_bad_params E a params body st ew es w n s :
  is_call (b "define") (Lst (Sym a :: params) st ew es w :: body) n ->
  1 < length (rest_names params) \/ 1 < length (kwrest_names params) ->
  exists st', eval E n s (Err (EErr EBindMultiRest st')).
Proof.
  intros C H. destruct (create_macro_cases (a_val a) params body (entered n s)) as [[A [B _]]|[_ [st' R]]]; [lia|].
  exists st'. apply (eval_define_fun E a params body st ew es w n s _ C). right. split; [exact H|].
  rewrite R. reflexivity.
Qed.

Lemma ifdef_lazy E cond yes no yes' no' a n n' s r :
  atomic cond = Some a ->
  is_call (b "ifdef") [cond; yes; no] n -> is_call (b "ifdef") [cond; yes'; no'] n' ->
  leading_ws n = leading_ws n' ->
  (if defined (a_val a) (x_defs s) then yes = yes' else no = no') ->
  eval E n s r -> eval E n' s r.
Proof.
  intros A C C' W D. rewrite (eval_ifdef E cond yes [no] a n s r C (le_n 1) A).
  rewrite (eval_ifdef E cond yes' [no'] a n' s r C' (le_n 1) A).
  change (entered n' s) with (entered n s). change (noted n' s) with (noted n s). rewrite <- W.
  destruct (defined (a_val a) (x_defs s)); subst; tauto.
Qed.

Lemma eval_ifdef_get E cond yes no a n s r :
  is_call (b "ifdef") (cond :: yes :: no) n ->
  length no <= 1 -> atomic cond = Some a ->
  eval E n s r <->
  exists q,
    match get (a_val a) (x_defs s) with
    | Some _ => eval E yes (entered n s) q
    | None => match no with
              | [alt] => eval E alt (entered n s) q
              | _ => q = Ok ([], entered n s)
              end
    end /\
    match q with
    | Ok ([], s1) => r = Ok ([], s1)
    | Ok (ns, s1) => r = Ok (respaced (leading_ws n) ns, noted n s s1)
    | _ => fails q r
    end.
Proof.
  intros C L A. rewrite (eval_ifdef E cond yes no a n s r C L A). unfold defined.
  destruct (get (a_val a) (x_defs s)); reflexivity.
Qed.

Lemma ifdef_lazy_get E cond yes no yes' no' a n n' s r :
  atomic cond = Some a ->
  is_call (b "ifdef") [cond; yes; no] n -> is_call (b "ifdef") [cond; yes'; no'] n' ->
  leading_ws n = leading_ws n' ->
  match get (a_val a) (x_defs s) with Some _ => yes = yes' | None => no = no' end ->
  eval E n s r -> eval E n' s r.
Proof.
  intros A C C' W D. apply (ifdef_lazy E cond yes no yes' no' a n n' s r A C C' W).
  unfold defined. destruct (get (a_val a) (x_defs s)); exact D.
Qed.

Lemma eval_attribute E k v st w s r :
  eval E (Attr k v st w) s r <->
  exists q, eval E v s q /\
    match q with
    | Ok ([], _) => r = Panic PIndex
    | Ok (x :: ns, s1) => r = Ok (Attr k x st w :: ns, s1)
    | _ => fails q r
    end.
Proof.
  rewrite eval_attr. split; intros [q [V H]]; exists q; (split; [exact V|]);
    destruct q as [[[|x ns] s1]| | | |]; try exact H; destruct V as [V _]; congruence.
Qed.

(** ** Variables *)

Lemma define_then_use E a body n s s2 vs s1 s3 st w :
  is_call (b "define") (Sym a :: body) n ->
  evals E body (entered n s) (Ok (vs, s1)) -> Forall macro_free vs ->
  eval E n s (Ok ([], s2)) ->
  get (a_val a) (x_defs s3) = get (a_val a) (x_defs s2) ->
  exists s4, eval E (Sym (Atom (b "%" ++ a_val a) st w)) s3 (Ok (respaced w vs, s4)) /\
    x_defs s4 = x_defs s3 /\ x_world s4 = x_world s3.
Proof.
  intros C V M D G. apply (eval_define_var E a body n s _ C) in D as [q [Q D]].
  pose proof (evals_fun E _ _ _ _ Q V) as ->. destruct D as [s2' [R [H _]]]. inversion R; subst s2'.
  rewrite H in G. destruct (evals_macro_free E vs M s3) as [s4 [V4 [S1 S2]]].
  exists s4. split; [|auto]. apply (eval_percent E _ _ _ _ vs); [exact G|].
  exists (Ok (vs, s4)). split; [exact V4|]. reflexivity.
Qed.
