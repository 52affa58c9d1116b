(** * Proofs about iterating macros, [%get] and [%lambda] *)

From Coq Require Import String List Ascii Bool Arith NArith Lia Permutation.
From Verif Require Import Text Res Ast Args Env Scope State Bind Data Sorting Expander Numbers
  Spec_args Spec_expand Spec_builtin Spec_bind Spec_control Proofs_text Proofs_ast Proofs_run
  Proofs_eval Proofs_args Proofs_builtin Proofs_simple Proofs_bind Proofs_control.
Import ListNotations.

Lemma surplus_drop rs k vs :
  (forall i, has_rule rs (PInt (S i)) = (i <? k)) ->
  (forall key, has_rule rs (PStr key) = false) ->
  surplus rs vs = drop_positionals k vs.
Proof.
  intros H K. unfold surplus.
  enough (G : forall j, j <= k ->
    map snd (filter (fun '(pos, _) => negb (has_rule rs pos)) (slots j vs)) = drop_positionals (k - j) vs).
  { rewrite (G 0) by lia. rewrite Nat.sub_0_r. reflexivity. }
  induction vs as [|n vs IH]; intros j L; [destruct (k - j); reflexivity|].
  assert (A : (exists k' v st w, n = Attr k' v st w) \/
     (slots j (n :: vs) = (PInt (S j), n) :: slots (S j) vs /\
      drop_positionals (k - j) (n :: vs) =
        match k - j with 0 => n :: vs | S i => drop_positionals i vs end)).
  { destruct n; [right; split; [reflexivity|cbn; destruct (k - j); reflexivity] .. |left; eauto]. }
  destruct A as [[k' [v [st [w ->]]]] | [A1 A2]].
  - cbn [slots filter]. rewrite K. cbn [negb map snd]. rewrite IH by exact L.
    cbn [drop_positionals]. destruct (k - j) eqn:D; [|reflexivity].
    destruct vs; reflexivity.
  - rewrite A1, A2. cbn [filter]. rewrite H. destruct (j <? k) eqn:J.
    + apply Nat.ltb_lt in J. cbn [negb]. rewrite IH by lia.
      replace (k - j) with (S (k - S j)) by lia. reflexivity.
    + apply Nat.ltb_ge in J. replace (k - j) with 0 by lia. cbn [negb map snd]. f_equal.
      assert (R : forall j vs, k <= j ->
         map snd (filter (fun '(pos, _) => negb (has_rule rs pos)) (slots j vs)) = vs).
      { clear -H K. intros j vs. revert j. induction vs as [|n vs IH]; intros j L; [reflexivity|].
        assert (J : j <? k = false) by (apply Nat.ltb_ge; lia).
        destruct n; cbn [slots filter]; rewrite ?H, ?K, ?J; cbn; rewrite IH by lia; reflexivity. }
      apply R. lia.
Qed.

Lemma accepted_for vs :
  accepted rules_for vs <->
  exists p i items st ew es w rest,
    positionals vs = p :: Sym i :: Lst items st ew es w :: rest /\ a_val i = b "in".
Proof.
  rewrite (accepted_alt _ _ wf_for). split.
  - intros [A [B M]].
    assert (G : given (PInt 3) vs <> None).
    { apply M with (r := mandatory 3 (TList [])) (t := TList []); [rule|reflexivity]. }
    cbn in G. destruct (positionals vs) as [|p [|q [|l rest]]] eqn:P; cbn in G; try congruence.
    pose proof (A 1 q eq_refl) as A2. pose proof (A 2 l eq_refl) as A3.
    unfold pos_fits in A2, A3. cbn -[b] in A2, A3.
    destruct A2 as [[i ->] A2]. destruct A3 as [items [st [ew [es [w [-> _]]]]]].
    exists p, i, items, st, ew, es, w, rest. split; [reflexivity|].
    destruct A2 as [A2|[x [[<-|[]] A2]]]; [discriminate|].
    destruct A2 as [a [Ea Ev]]. cbn in Ea. inversion Ea; subst. exact Ev.
  - intros [p [i [items [st [ew [es [w [rest [P I]]]]]]]]]. split; [|split].
    + intros j q H. rewrite P in H. destruct j as [|[|[|j]]]; cbn in H; try (inversion H; subst).
      * table. left. reflexivity.
      * table. split; [eauto|]. right. exists (Exactly (b "in")). split; [left; reflexivity|].
        exists i. split; [reflexivity|exact I].
      * table. exists items, st, ew, es, w. auto.
      * table. exists (TAny []). split; [reflexivity|left; reflexivity].
    + intros k v st' w' _. table. exists (TAny []). split; [reflexivity|left; reflexivity].
    + intros pos r t [[<-|[<-|[<-|[]]]] Hp] Ht; destruct Hp as [<-|[]]; cbn; rewrite P; discriminate.
Qed.

Lemma accepted_map vs :
  accepted rules_map vs <-> exists f rest, positionals vs = Sym f :: rest.
Proof.
  rewrite (accepted_alt _ _ wf_map). split.
  - intros [A [B M]].
    assert (G : given (PInt 1) vs <> None).
    { apply M with (r := mandatory 1 (TSymbol [])) (t := TSymbol []); [rule|reflexivity]. }
    cbn in G. destruct (positionals vs) as [|p rest] eqn:P; cbn in G; try congruence.
    pose proof (A 0 p eq_refl) as A1. unfold pos_fits in A1. cbn in A1. destruct A1 as [[f ->] _]. eauto.
  - intros [f [rest P]]. split; [|split].
    + intros j q H. rewrite P in H. destruct j as [|j]; cbn in H; [inversion H; subst|].
      * table. split; [eauto|left; reflexivity].
      * table. exists (TAny []). split; [reflexivity|left; reflexivity].
    + intros k v st' w' _. table. exists (TAny []). split; [reflexivity|left; reflexivity].
    + intros pos r t [[<-|[]] Hp] Ht; destruct Hp as [<-|[]]; cbn; rewrite P; discriminate.
Qed.

Lemma accepted_lambda vs : accepted rules_lambda vs <-> positionals vs <> [].
Proof.
  rewrite (accepted_alt _ _ wf_lambda). split.
  - intros [A [B M]].
    assert (G : given (PInt 1) vs <> None).
    { apply M with (r := mandatory 1 (TAny [])) (t := TAny []); [rule|reflexivity]. }
    cbn in G. destruct (positionals vs); cbn in G; congruence.
  - intros P. split; [|split].
    + intros j q H. destruct j as [|j]; table.
      * left. reflexivity.
      * exists (TAny []). split; [reflexivity|left; reflexivity].
    + intros k v st' w' _. table. exists (TAny []). split; [reflexivity|left; reflexivity].
    + intros pos r t [[<-|[]] Hp] Ht; destruct Hp as [<-|[]]; cbn.
      destruct (positionals vs); [congruence|discriminate].
Qed.

Section WithEnv.
Variable E : env.
Notation ex f := (fun n s => run E f (TNode n) s).
Notation inv f := (fun name c ps s => run E f (TInvoke name c ps) s).

(** ** Reading the arguments of these macros *)

Lemma for_arguments c vs p i items st ew es w rest :
  positionals vs = p :: Sym i :: Lst items st ew es w :: rest -> a_val i = b "in" ->
  exists x, arguments rules_for c vs = Ok x /\ need as_node (PInt 1) x = Ok p /\
    need as_list (PInt 3) x = Ok items /\ rest_of as_node x = Ok (drop_positionals 3 vs).
Proof.
  intros P I. destruct (arguments_spec rules_for c vs wf_for) as [A _].
  destruct A as [x [X _]]. { apply accepted_for. do 8 eexists. eauto. }
  exists x. split; [exact X|]. split; [|split].
  - apply (need_node _ _ _ _ wf_for X (PInt 1) (mandatory 1 (TAny [])) p []); [rule|cbn; rewrite P; reflexivity|reflexivity].
  - apply (need_list _ _ _ _ wf_for X (PInt 3) (mandatory 3 (TList [])) (Lst items st ew es w) []);
      [rule|cbn; rewrite P; reflexivity|reflexivity|reflexivity].
  - rewrite (rest_nodes _ _ _ _ wf_for X [] eq_refl). f_equal.
    apply surplus_drop; [intros [|[|[|j]]]; reflexivity|reflexivity].
Qed.

Lemma map_arguments c vs f rest :
  positionals vs = Sym f :: rest ->
  exists x, arguments rules_map c vs = Ok x /\ need as_atom (PInt 1) x = Ok f /\
    rest_of as_node x = Ok (drop_positionals 1 vs).
Proof.
  intros P. destruct (arguments_spec rules_map c vs wf_map) as [A _].
  destruct A as [x [X _]]. { apply accepted_map. eauto. }
  exists x. split; [exact X|]. split.
  - apply (need_atom _ _ _ _ wf_map X (PInt 1) (mandatory 1 (TSymbol [])) (Sym f) f);
      [rule|cbn; rewrite P; reflexivity|reflexivity|reflexivity].
  - rewrite (rest_nodes _ _ _ _ wf_map X [] eq_refl). f_equal.
    apply surplus_drop; [intros [|j]; reflexivity|reflexivity].
Qed.

Lemma lambda_arguments c vs p rest :
  positionals vs = p :: rest ->
  exists x, arguments rules_lambda c vs = Ok x /\ need as_node (PInt 1) x = Ok p /\
    rest_of as_node x = Ok (drop_positionals 1 vs).
Proof.
  intros P. destruct (arguments_spec rules_lambda c vs wf_lambda) as [A _].
  destruct A as [x [X _]]. { apply accepted_lambda. congruence. }
  exists x. split; [exact X|]. split.
  - apply (need_node _ _ _ _ wf_lambda X (PInt 1) (mandatory 1 (TAny [])) p []); [rule|cbn; rewrite P; reflexivity|reflexivity].
  - rewrite (rest_nodes _ _ _ _ wf_lambda X [] eq_refl). f_equal.
    apply surplus_drop; [intros [|j]; reflexivity|reflexivity].
Qed.

Lemma bad_arguments rs c vs : well_formed rs -> ~ accepted rs vs -> exists e, arguments rs c vs = Err e.
Proof. intros W N. destruct (arguments_spec rs c vs W) as [_ B]. auto. Qed.

(** ** %map, %filter and %apply *)

Definition dropping (d : bool) : list node -> bool := if d then is_unit else drop_none.

Lemma each_applying d name c ns : forall s r,
  settles (fun f => map_each (inv f) d name c ns s) r <-> applying E name c (dropping d) ns s r.
Proof.
  induction ns as [|n ns IH]; intros s r; cbn [map_each].
  { rewrite settles_const_iff. split.
    - intros [-> _]. constructor.
    - intros H. inversion H; subst. split; [reflexivity|discriminate]. }
  rewrite settles_seq by apply growing_run.
  assert (U : forall xs : list node, match xs with
                | [x] => if d && null x then [] else xs | _ => xs end
             = if dropping d xs then [] else xs).
  { intros [|x [|y xs]]; unfold dropping; destruct d; try reflexivity.
    destruct x as [a|a|a|a|l st ew es w|k v st w]; try reflexivity. destruct l; reflexivity. }
  split.
  - intros [q [Q H]]. destruct q as [[xs s1]|e|p| |];
      try (eapply applying_fails; [exact Q|exact H]).
    rewrite U in H. apply settles_followed in H as [q [Q2 ->]]; [|apply growing_map].
    econstructor; [exact Q|]. apply IH, Q2.
  - intros H. inversion H as [|? ? ? xs s1 q Q M|? ? ? q ? Q Fq]; subst.
    + exists (Ok (xs, s1)). split; [exact Q|]. rewrite U. apply settles_followed; [apply growing_map|].
      exists q. split; [apply IH; exact M|reflexivity].
    + exists q. split; [exact Q|]. destruct q; try exact Fq. contradiction.
Qed.

(** Macros that take a macro name and arguments for it. *)
Lemma eval_functional name m k args n s r :
  find_builtin name = Some m ->
  (forall ex inv c ps s, run_builtin E ex inv m c ps s =
     let* '(x, _, s) := eager ex rules_map c ps s in
     let* f := need as_atom (PInt 1) x in
     let* l := rest_of as_node x in k inv (a_val f) c l s) ->
  (forall name c ns s, growing (fun f => k (inv f) name c ns s)) ->
  is_call name args n ->
  eval E n s r <->
  exists q, evals E (received args) (entered n s) q /\
    match q with
    | Ok (vs, s1) =>
        match positionals vs with
        | Sym f :: _ => settles (fun fu => k (inv fu) (a_val f) (ref n s) (drop_positionals 1 vs)
                                            (noted n s s1)) r
        | _ => exists e, r = Err e /\ arguments rules_map n vs = Err e
        end
    | _ => fails q r
    end.
Proof.
  intros F K G C. rewrite (eval_builtin E name m args n s r F C).
  rewrite (settles_ext _ (fun f => bind (exs (ex f) (received args) (entered n s))
     (fun '(vs, s1) => let* x := arguments rules_map n vs in
        let* a := need as_atom (PInt 1) x in
        let* l := rest_of as_node x in k (inv f) (a_val a) (ref n s) l (noted n s s1)))).
  2: { intros f. rewrite K. unfold eager.
       destruct (exs (ex f) (received args) (entered n s)) as [[vs s1]| | | |]; try reflexivity.
       cbn [bind]. destruct (arguments rules_map (c_node (ref n s)) vs) eqn:A;
         unfold ref, register in A; cbn [fst c_node] in A; rewrite A; reflexivity. }
  rewrite settles_seq by apply growing_exs.
  assert (H : forall vs s1, settles (fun f => let* x := arguments rules_map n vs in
        let* a := need as_atom (PInt 1) x in
        let* l := rest_of as_node x in k (inv f) (a_val a) (ref n s) l (noted n s s1)) r <->
     match positionals vs with
        | Sym f :: _ => settles (fun fu => k (inv fu) (a_val f) (ref n s) (drop_positionals 1 vs)
                                            (noted n s s1)) r
        | _ => exists e, r = Err e /\ arguments rules_map n vs = Err e
        end).
  { intros vs s1.
    assert (Bad : (forall f l, positionals vs <> Sym f :: l) ->
       settles (fun f => let* x := arguments rules_map n vs in
        let* a := need as_atom (PInt 1) x in
        let* l := rest_of as_node x in k (inv f) (a_val a) (ref n s) l (noted n s s1)) r <->
       exists e, r = Err e /\ arguments rules_map n vs = Err e).
    { intros N. destruct (bad_arguments rules_map n vs wf_map) as [e X].
      { intros A. apply accepted_map in A as [f [l P]]. exact (N f l P). }
      rewrite X. cbn [bind]. rewrite settles_const_iff. split.
      - intros [-> _]. eauto.
      - intros [e' [-> I]]. inversion I; subst. split; [reflexivity|discriminate]. }
    destruct (positionals vs) as [|[f|f|f|f|? ? ? ? ?|? ? ? ?] l] eqn:P;
      try (apply Bad; congruence).
    destruct (map_arguments n vs f l P) as [x [X [X1 X2]]].
    rewrite X. cbn [bind]. rewrite X1. cbn [bind]. rewrite X2. cbn [bind]. reflexivity. }
  split; intros [q [Q Z]]; exists q; (split; [exact Q|]); destruct q as [[vs s1]|e|p| |]; try exact Z;
    apply H; exact Z.
Qed.

Lemma eval_map (d : bool) args n s r :
  is_call (if d then b "filter" else b "map") args n ->
  eval E n s r <->
  exists q, evals E (received args) (entered n s) q /\
    match q with
    | Ok (vs, s1) =>
        match positionals vs with
        | Sym f :: _ => applying E (a_val f) (ref n s) (dropping d) (drop_positionals 1 vs) (noted n s s1) r
        | _ => exists e, r = Err e /\ arguments rules_map n vs = Err e
        end
    | _ => fails q r
    end.
Proof.
  intros C.
  rewrite (eval_functional (if d then b "filter" else b "map") (if d then BFilter else BMap)
     (fun (i : bytes -> call -> list node -> state -> out) name c l s => map_each i d name c l s) args n s r);
    [|destruct d; reflexivity|destruct d; intros; reflexivity|intros; apply growing_map|exact C].
  split; intros [q [Q Z]]; exists q; (split; [exact Q|]); destruct q as [[vs s1]|e|p| |]; try exact Z;
    destruct (positionals vs) as [|[f|f|f|f|? ? ? ? ?|? ? ? ?] l]; try exact Z; apply each_applying, Z.
Qed.

Lemma eval_apply args n s r :
  is_call (b "apply") args n ->
  eval E n s r <->
  exists q, evals E (received args) (entered n s) q /\
    match q with
    | Ok (vs, s1) =>
        match positionals vs with
        | Sym f :: _ => invokes E (a_val f) (ref n s) (drop_positionals 1 vs) (noted n s s1) r
        | _ => exists e, r = Err e /\ arguments rules_map n vs = Err e
        end
    | _ => fails q r
    end.
Proof.
  intros C.
  rewrite (eval_functional (b "apply") BApply
     (fun (i : bytes -> call -> list node -> state -> out) name c l s => i name c l s) args n s r);
    [|reflexivity|intros; reflexivity|intros; apply growing_run|exact C].
  split; intros [q [Q Z]]; exists q; (split; [exact Q|]); destruct q as [[vs s1]|e|p| |]; try exact Z;
    destruct (positionals vs) as [|[f|f|f|f|? ? ? ? ?|? ? ? ?] l]; exact Z.
Qed.

(** ** %lambda *)

Lemma eval_lambda args n s r :
  is_call (b "lambda") args n ->
  eval E n s r <->
  match positionals (received args) with
  | head :: _ =>
      let name := b "__lambda" ++ uuid E s (node_site n) in
      let body := drop_positionals 1 (received args) in
      let made params :=
        r = bind (create_macro name params body (touch (ref n s) (entered n s)))
              (fun s1 => Ok ([Sym (in_place n name)], s1)) in
      match head with
      | Lst params _ _ _ _ => made params
      | Sym _ => made [head]
      | _ => r = Err (EErr ELambda (node_site head))
      end
  | [] => exists e, r = Err e /\ arguments rules_lambda n (received args) = Err e
  end.
Proof.
  intros C. rewrite (eval_builtin E (b "lambda") BLambda args n s r eq_refl C).
  cbn [run_builtin]. unfold do_lambda.
  change (c_node (ref n s)) with n.
  destruct (positionals (received args)) as [|head l] eqn:P.
  - destruct (bad_arguments rules_lambda n (received args) wf_lambda) as [e X].
    { intros A. apply accepted_lambda in A. congruence. }
    rewrite X. cbn [bind]. rewrite settles_const_iff. split.
    + intros [-> _]. eauto.
    + intros [e' [-> I]]. inversion I; subst. split; [reflexivity|discriminate].
  - destruct (lambda_arguments n (received args) head l P) as [x [X [X1 X2]]].
    rewrite X. cbn [bind]. rewrite X1. cbn [bind]. rewrite X2. cbn [bind]. cbv zeta.
    change (uuid E (entered n s) (call_site (ref n s))) with (uuid E s (node_site n)).
    set (name := b "__lambda" ++ uuid E s (node_site n)). clearbody name.
    change (here (ref n s) name) with (in_place n name).
    destruct head as [a|a|a|a|params st ew es w|k v st w]; cbn [list_of symbol bind].
    all: rewrite settles_const_iff; split; [intros [-> _]; reflexivity|intros ->; split; [reflexivity|]].
    all: try discriminate.
    all: match goal with |- context [create_macro ?a ?p ?q ?t] =>
      destruct (create_macro_cases a p q t) as [[_ [_ ->]]|[_ [st' ->]]]; discriminate end.
Qed.

(** ** %for *)

Hypothesis ORDER : forall seed l, Permutation (e_order E seed l) l.

Lemma eval_for args n s r :
  is_call (b "for") args n ->
  eval E n s r <->
  match positionals (received args) with
  | p :: Sym i :: Lst items _ _ _ _ :: _ =>
      if beq (a_val i) (b "in") then
        exists q, evals E items (noted n s (entered n s)) q /\
          match q with
          | Ok (vs, s1) => exists q1,
              looping E p (drop_positionals 3 (received args)) vs (copied s1) q1 /\ r = closed s1 q1
          | _ => fails q r
          end
      else exists e, r = Err e /\ arguments rules_for n (received args) = Err e
  | _ => exists e, r = Err e /\ arguments rules_for n (received args) = Err e
  end.
Proof.
  intros C. rewrite (eval_builtin E (b "for") BFor args n s r eq_refl C).
  cbn [run_builtin]. unfold do_for. change (c_node (ref n s)) with n.
  change (touch (ref n s) (entered n s)) with (noted n s (entered n s)).
  set (s0 := noted n s (entered n s)). clearbody s0.
  assert (Bad : (forall p i items st ew es w rest,
      positionals (received args) = p :: Sym i :: Lst items st ew es w :: rest -> a_val i <> b "in") ->
    settles (fun f => let* x := arguments rules_for n (received args) in
      let s := s0 in
      let* pat := need as_node (PInt 1) x in
      let* items := need as_list (PInt 3) x in
      let* body := rest_of as_node x in
      let* '(items, s) := exs (ex f) items s in
      let* '(ns, _, s) := in_frame (for_each E (ex f) pat items body) s in Ok (ns, s)) r <->
    exists e, r = Err e /\ arguments rules_for n (received args) = Err e).
  { intros N. destruct (bad_arguments rules_for n (received args) wf_for) as [e X].
    { intros A. apply accepted_for in A as [p [i [items [st [ew [es [w [rest [P I]]]]]]]]].
      exact (N _ _ _ _ _ _ _ _ P I). }
    rewrite X. cbn [bind]. rewrite settles_const_iff. split.
    - intros [-> _]. eauto.
    - intros [e' [-> I]]. inversion I; subst. split; [reflexivity|discriminate]. }
  cbv zeta in *.
  destruct (positionals (received args)) as [|p [|[i|i|i|i|? ? ? ? ?|? ? ? ?]
     [|[a|a|a|a|items st ew es w|? ? ? ?] rest]]] eqn:P; try (apply Bad; congruence).
  destruct (beq (a_val i) (b "in")) eqn:I.
  2: { apply beq_neq in I. apply Bad. intros. intros X. inversion H; subst. congruence. }
  apply beq_eq in I.
  destruct (for_arguments n (received args) _ _ _ _ _ _ _ _ P I) as [x [X [X1 [X2 X3]]]].
  rewrite X. cbn [bind]. rewrite X1. cbn [bind]. rewrite X2. cbn [bind]. rewrite X3. cbn [bind].
  rewrite settles_seq by apply growing_exs.
  assert (H : forall vs s1, settles (fun f =>
     let* '(ns, _, s) := in_frame (for_each E (ex f) p vs (drop_positionals 3 (received args))) s1 in Ok (ns, s)) r <->
     exists q1, looping E p (drop_positionals 3 (received args)) vs (copied s1) q1 /\ r = closed s1 q1).
  { intros vs s1. rewrite (settles_ext _ (fun f => closed s1 (for_each E (ex f) p vs
        (drop_positionals 3 (received args)) (copied s1)))) by (intros f; apply in_frame_closed).
    rewrite settles_closed by apply growing_for.
    split; intros [q [Q Z]]; exists q; (split; [apply (for_looping E ORDER); exact Q|exact Z]). }
  split; intros [q [Q Z]]; exists q; (split; [exact Q|]); destruct q as [[vs s1]|e|pn| |]; try exact Z;
    apply H; exact Z.
Qed.
End WithEnv.
