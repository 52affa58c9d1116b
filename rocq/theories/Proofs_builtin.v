(** * Proofs about builtin macros *)

From Coq Require Import String List Ascii Bool Arith NArith Lia.
From Verif Require Import Text Res Ast Args Env Scope State Bind Data Sorting Expander Numbers
  Spec_args Spec_expand Spec_builtin Proofs_text Proofs_ast Proofs_run Proofs_eval Proofs_args.
Import ListNotations.

Lemma ok_inj {A} (x y : A) : Ok x = Ok y -> x = y.
Proof. congruence. Qed.

(** ** Rule tables *)

Lemma wf_markdown : well_formed rules_markdown.
Proof. split; cbn; repeat constructor; cbn; intuition discriminate. Qed.
Lemma wf_yaml : well_formed rules_yaml.
Proof. split; cbn; repeat constructor; cbn; intuition discriminate. Qed.
Lemma wf_get : well_formed rules_get.
Proof. split; cbn; repeat constructor; cbn; intuition discriminate. Qed.
Lemma wf_date : well_formed rules_date.
Proof. split; cbn; repeat constructor; cbn; intuition discriminate. Qed.
Lemma wf_timestamp : well_formed rules_timestamp.
Proof. split; cbn; repeat constructor; cbn; intuition discriminate. Qed.
Lemma wf_for : well_formed rules_for.
Proof. split; cbn; repeat constructor; cbn; intuition discriminate. Qed.
Lemma wf_glob : well_formed rules_glob.
Proof. split; cbn; repeat constructor; cbn; intuition discriminate. Qed.
Lemma wf_literals : well_formed rules_literals.
Proof. split; cbn; repeat constructor; cbn; intuition discriminate. Qed.
Lemma wf_reverse : well_formed rules_reverse.
Proof. split; cbn; repeat constructor; cbn; intuition discriminate. Qed.
Lemma wf_sort : well_formed rules_sort.
Proof. split; cbn; repeat constructor; cbn; intuition discriminate. Qed.
Lemma wf_join : well_formed rules_join.
Proof. split; cbn; repeat constructor; cbn; intuition discriminate. Qed.
Lemma wf_map : well_formed rules_map.
Proof. split; cbn; repeat constructor; cbn; intuition discriminate. Qed.
Lemma wf_lambda : well_formed rules_lambda.
Proof. split; cbn; repeat constructor; cbn; intuition discriminate. Qed.

(** ** Slots *)

Lemma slots_num i p ps : forall k,
  In (PInt i, p) (slots k ps) <-> exists j, i = S (k + j) /\ nth_error (positionals ps) j = Some p.
Proof.
  induction ps as [|q ps IH]; intros k.
  { cbn. split; [contradiction|]. intros [j [_ H]]. destruct j; discriminate. }
  assert (A : (exists k' v st w, q = Attr k' v st w) \/
              (slots k (q :: ps) = (PInt (S k), q) :: slots (S k) ps /\
               positionals (q :: ps) = q :: positionals ps)).
  { destruct q; [right; auto .. | left; eauto]. }
  destruct A as [[k' [v [st [w ->]]]] | [A1 A2]].
  - cbn [slots positionals filter is_attribute attribute is_some negb In].
    rewrite IH. split; [intros [H|H]; [discriminate|exact H]|auto].
  - rewrite A1, A2. cbn [In]. rewrite IH. split.
    + intros [H|[j [-> H]]]; [inversion H; subst; exists 0; split; [lia|reflexivity]|].
      exists (S j). split; [lia|exact H].
    + intros [[|j] [-> H]]; [left; cbn in H; rewrite Nat.add_0_r; congruence|].
      right. exists j. split; [lia|exact H].
Qed.

Lemma slots_kw key p ps : forall k,
  In (PStr key, p) (slots k ps) <-> In p ps /\ exists v st w, p = Attr key v st w.
Proof.
  induction ps as [|q ps IH]; intros k.
  { cbn. tauto. }
  destruct q; cbn [slots In]; rewrite IH; split.
  1,3,5,7,9,11: intros [H|H]; try discriminate; try tauto; inversion H; subst; eauto 8.
  all: intros [[H|H] [v' [st' [w' Q]]]]; subst; try discriminate; eauto 8.
  inversion Q; subst. left. reflexivity.
Qed.

Lemma keyword_in k ps v : keyword_value k ps = Some v -> exists st w, In (Attr k v st w) ps.
Proof.
  induction ps as [|p ps IH]; cbn; [discriminate|].
  destruct (keyword_value k ps) as [x|] eqn:K.
  - intros H. inversion H; subst. destruct (IH eq_refl) as [st [w I]]. eauto.
  - destruct p; try discriminate. destruct (beq k keyword) eqn:Q; [|discriminate].
    intros H. inversion H; subst. apply beq_eq in Q. subst. eauto.
Qed.

Lemma keyword_none k ps : keyword_value k ps = None -> forall v st w, ~ In (Attr k v st w) ps.
Proof.
  induction ps as [|p ps IH]; cbn; intros H v st w I; [contradiction|].
  destruct (keyword_value k ps) eqn:K; [discriminate|]. destruct I as [->|I].
  - rewrite beq_refl in H. discriminate.
  - eapply IH; eauto.
Qed.

Lemma in_positionals p ps : In p (positionals ps) <-> In p ps /\ is_attribute p = false.
Proof. unfold positionals. rewrite filter_In, negb_true_iff. reflexivity. Qed.

(** Acceptance, by position and by keyword. *)
Definition pos_fits (rs : rules) (pos : argpos) (p : node) : Prop :=
  match find (rule_matches pos) (patterns rs) with
  | Some r => fits (argtype_of (r_arg r)) p
  | None => exists t, trailing rs = Some t /\ fits t p
  end.
Definition kw_fits (rs : rules) (k : bytes) (v : node) (st : site) (w : bytes) : Prop :=
  match find (rule_matches (PStr k)) (patterns rs) with
  | Some r => fits (argtype_of (r_arg r)) v
  | None => exists t, trailing rs = Some t /\ fits t (Attr k v st w)
  end.
Lemma accepted_alt rs ps : well_formed rs ->
  accepted rs ps <->
  (forall i p, nth_error (positionals ps) i = Some p -> pos_fits rs (PInt (S i)) p) /\
  (forall k v st w, In (Attr k v st w) ps -> kw_fits rs k v st w) /\
  (forall pos r t, rule_for rs pos r -> r_arg r = Mandatory t -> given pos ps <> None).
Proof.
  intros W. rewrite (accepted_iff rs ps W), Forall_forall.
  assert (MP : forall i p, nth_error (positionals ps) i = Some p -> meant p = p).
  { intros i p H. apply nth_error_In, in_positionals in H as [_ H].
    destruct p; try discriminate; reflexivity. }
  split.
  - intros [A M]. split; [|split; [|exact M]].
    + intros i p H. assert (O : one_fits rs (PInt (S i), p)) by (apply A, slots_num; exists i; auto).
      unfold one_fits in O. cbn [fst snd] in O. rewrite (MP _ _ H) in O. exact O.
    + intros k v st w I. assert (O : one_fits rs (PStr k, Attr k v st w)) by (apply A, slots_kw; eauto 6).
      exact O.
  - intros [A [B M]]. split; [|exact M]. intros [[i|k] p] I.
    + apply slots_num in I as [j [-> H]]. unfold one_fits. cbn [fst snd Nat.add].
      rewrite (MP _ _ H). apply (A _ _ H).
    + apply slots_kw in I as [I [v [st [w ->]]]]. apply (B _ _ _ _ I).
Qed.

Lemma fits_lit n : fits lit n <-> literal n.
Proof.
  unfold literal. cbn. split.
  - intros [[a [H|[H|[H|H]]]] _]; subst; discriminate.
  - intros H. split; [|left; reflexivity]. destruct n as [a|a|a|a| |]; try (exists a; tauto); cbn in H; congruence.
Qed.

Lemma fits_any n : fits (TAny []) n.
Proof. left. reflexivity. Qed.

Lemma fits_one_of l n : l <> [] -> fits (TLiteral (one_of l)) n <-> text_among l n.
Proof.
  intros N. unfold text_among. cbn [fits]. split.
  - intros [_ [H|[p [I S]]]]; [destruct l; [congruence|discriminate]|].
    apply in_map_iff in I as [v [<- I]]. destruct S as [a [A <-]]. eauto.
  - intros [a [A I]]. split; [destruct n as [x|x|x|x| |]; try (exists x; tauto); discriminate|].
    right. exists (Exactly (a_val a)). split; [apply in_map, I|]. exists a. auto.
Qed.

Lemma fits_symbol n : fits (TSymbol []) n <-> exists a, n = Sym a.
Proof. cbn. split; [intros [H _]; exact H|]. intros H. split; [exact H|left; reflexivity]. Qed.
Lemma fits_number n : fits (TNumber []) n <-> exists a, n = Num a.
Proof. cbn. split; [intros [H _]; exact H|]. intros H. split; [exact H|left; reflexivity]. Qed.
Lemma fits_string n : fits (TString []) n <-> exists a, n = Str a \/ n = Raw a.
Proof. cbn. split; [intros [H _]; exact H|]. intros H. split; [exact H|left; reflexivity]. Qed.
Lemma fits_any_list n : fits (TList []) n <-> exists ns st ew es w, n = Lst ns st ew es w.
Proof.
  rewrite fits_list. split.
  - intros [ns [st [ew [es [w [H _]]]]]]. eauto 8.
  - intros [ns [st [ew [es [w H]]]]]. exists ns, st, ew, es, w. auto.
Qed.

(** ** Reading the argument structure *)

Section Read.
Variables (rs : rules) (c : node) (ps : list node) (x : args).
Hypothesis W : well_formed rs.
Hypothesis X : arguments rs c ps = Ok x.

Lemma field pos r n : rule_for rs pos r -> given pos ps = Some n ->
  exists v, arg_at pos (x_args x) = Some v /\ represents (argtype_of (r_arg r)) n v.
Proof.
  intros R G. destruct (arguments_ok rs c ps x W X) as [_ [F _]].
  specialize (F pos r R). rewrite G in F. exact F.
Qed.

Lemma field_none pos r : rule_for rs pos r -> given pos ps = None -> arg_at pos (x_args x) = None.
Proof.
  intros R G. destruct (arguments_ok rs c ps x W X) as [_ [F _]].
  specialize (F pos r R). rewrite G in F. exact F.
Qed.

Definition atom_type (t : argtype) : bool :=
  match t with TList _ | TAny _ => false | _ => true end.

Lemma need_atom pos r n a :
  rule_for rs pos r -> given pos ps = Some n -> atomic n = Some a ->
  atom_type (argtype_of (r_arg r)) = true -> need as_atom pos x = Ok a.
Proof.
  intros R G A T. destruct (field pos r n R G) as [v [V P]]. unfold need. rewrite V.
  destruct (argtype_of (r_arg r)); try discriminate; cbn in P;
    destruct P as [a' [A' ->]]; cbn; congruence.
Qed.

Lemma need_node pos r n t :
  rule_for rs pos r -> given pos ps = Some n -> argtype_of (r_arg r) = TAny t ->
  need as_node pos x = Ok n.
Proof.
  intros R G T. destruct (field pos r n R G) as [v [V P]]. unfold need. rewrite V.
  rewrite T in P. cbn in P. subst. reflexivity.
Qed.

Lemma need_list pos r n t l :
  rule_for rs pos r -> given pos ps = Some n -> argtype_of (r_arg r) = TList t ->
  list_of n = Some l -> need as_list pos x = Ok l.
Proof.
  intros R G T L. destruct (field pos r n R G) as [v [V P]]. unfold need. rewrite V.
  rewrite T in P. cbn in P. destruct P as [l' [L' ->]]. cbn. congruence.
Qed.

Lemma want_atom pos r :
  rule_for rs pos r -> atom_type (argtype_of (r_arg r)) = true ->
  want as_atom pos x =
  Ok (match given pos ps with Some n => atomic n | None => None end).
Proof.
  intros R T. unfold want. destruct (given pos ps) as [n|] eqn:G.
  - destruct (field pos r n R G) as [v [V P]]. rewrite V.
    destruct (argtype_of (r_arg r)); try discriminate; cbn in P;
      destruct P as [a' [A' ->]]; cbn; congruence.
  - rewrite (field_none pos r R G). reflexivity.
Qed.

Lemma rest_atoms t :
  trailing rs = Some t -> atom_type t = true ->
  exists l, rest_of as_atom x = Ok l /\ map (@Some atom) l = map atomic (surplus rs ps).
Proof.
  intros T A. destruct (arguments_ok rs c ps x W X) as [_ [_ F]]. rewrite T in F.
  unfold rest_of. induction F as [|n v ns vs P F [l [IH1 IH2]]]; [exists []; auto|].
  assert (Q : exists a, atomic n = Some a /\ v = VAtom a) by (destruct t; try discriminate; exact P).
  destruct Q as [a [Q ->]]. exists (a :: l). cbn. rewrite IH1. cbn. rewrite IH2, Q. auto.
Qed.

Lemma rest_nodes t :
  trailing rs = Some (TAny t) -> rest_of as_node x = Ok (surplus rs ps).
Proof.
  intros T. destruct (arguments_ok rs c ps x W X) as [_ [_ F]]. rewrite T in F.
  unfold rest_of. induction F as [|n v ns vs P F IH]; [reflexivity|].
  cbn in P. subst. cbn. rewrite IH. reflexivity.
Qed.
End Read.

Ltac rule := split; [cbn; tauto | cbn; tauto].

(** Outcome of argument parsing as a case distinction. *)
Lemma arguments_cases rs c ps :
  well_formed rs ->
  (accepted rs ps /\ exists x, arguments rs c ps = Ok x) \/
  (~ accepted rs ps /\ exists e, arguments rs c ps = Err e).
Proof.
  intros W. destruct (arguments_spec rs c ps W) as [A B]. destruct (accepted_dec rs ps W) as [D|D].
  - left. split; [exact D|]. destruct (A D) as [x [H _]]. eauto.
  - right. split; [exact D|]. auto.
Qed.

Lemma options_nil ok : options [] ok.
Proof. intros k v st w []. Qed.

(** Surplus arguments, where every keyword has a rule. *)
Lemma surplus_positional rs k vs :
  (forall i, has_rule rs (PInt (S i)) = (i <? k)) ->
  options vs (fun key _ => has_rule rs (PStr key) = true) ->
  surplus rs vs = skipn k (positionals vs).
Proof.
  intros H. unfold surplus.
  assert (G : forall j vs, options vs (fun key _ => has_rule rs (PStr key) = true) ->
    map snd (filter (fun '(pos, _) => negb (has_rule rs pos)) (slots j vs)) =
    skipn (k - j) (positionals vs)).
  { clear vs. intros j vs. revert j. induction vs as [|v vs IH]; intros j O.
    { cbn. symmetry. apply skipn_nil. }
    assert (O' : options vs (fun key _ => has_rule rs (PStr key) = true)).
    { intros k' v' st w I. eapply O. right. exact I. }
    assert (A : (exists k' v' st w, v = Attr k' v' st w) \/
                (slots j (v :: vs) = (PInt (S j), v) :: slots (S j) vs /\
                 positionals (v :: vs) = v :: positionals vs)).
    { destruct v; [right; auto .. | left; eauto]. }
    destruct A as [[k' [v' [st [w ->]]]] | [A1 A2]].
    - cbn [slots filter]. rewrite (O k' v' st w) by (left; reflexivity). cbn [negb].
      rewrite IH by exact O'. reflexivity.
    - rewrite A1, A2. cbn [filter]. rewrite H. destruct (j <? k) eqn:L; cbn [negb].
      + apply Nat.ltb_lt in L. rewrite IH by exact O'.
        replace (k - j) with (S (k - S j)) by lia. reflexivity.
      + apply Nat.ltb_ge in L. cbn [map snd]. rewrite IH by exact O'.
        replace (k - j) with 0 by lia. replace (k - S j) with 0 by lia. reflexivity. }
  intros O. rewrite G by exact O. rewrite Nat.sub_0_r. reflexivity.
Qed.

(** Surplus arguments, where only the first positional argument has a rule. *)
Lemma surplus_first rs pre v post :
  (forall i, has_rule rs (PInt (S i)) = (i <? 1)) ->
  (forall key, has_rule rs (PStr key) = false) ->
  Forall (fun n => is_attribute n = true) pre -> is_attribute v = false ->
  surplus rs (pre ++ v :: post) = pre ++ post.
Proof.
  intros H K A V. unfold surplus.
  assert (R : forall j vs, map snd (filter (fun '(pos, _) => negb (has_rule rs pos)) (slots (S j) vs)) = vs).
  { intros j vs. revert j. induction vs as [|n vs IH]; intros j; [reflexivity|].
    destruct n; cbn [slots filter]; rewrite ?H, ?K; cbn; rewrite IH; reflexivity. }
  induction A as [|n pre A _ IH]; cbn [app].
  - destruct v; try discriminate; cbn [slots filter]; rewrite H; cbn; rewrite R; reflexivity.
  - destruct n; try discriminate. cbn [slots filter]. rewrite K. cbn. rewrite IH. reflexivity.
Qed.

(** Every argument list has at most one such decomposition. *)
Lemma split_first vs :
  (exists pre v post, vs = pre ++ v :: post /\ Forall (fun n => is_attribute n = true) pre /\
     is_attribute v = false) \/ positionals vs = [].
Proof.
  induction vs as [|n vs IH]; [right; reflexivity|].
  destruct (is_attribute n) eqn:A.
  - destruct IH as [[pre [v [post [-> [F V]]]]] | IH].
    + left. exists (n :: pre), v, post. split; [reflexivity|]. split; [constructor; assumption|exact V].
    + right. unfold positionals in *. cbn. rewrite A. exact IH.
  - left. exists [], n, vs. split; [reflexivity|]. split; [constructor|exact A].
Qed.

Lemma positionals_first pre v post :
  Forall (fun n => is_attribute n = true) pre -> is_attribute v = false ->
  positionals (pre ++ v :: post) = v :: positionals post.
Proof.
  intros F V. unfold positionals. induction F as [|n pre A F IH]; cbn.
  - rewrite V. reflexivity.
  - rewrite A. exact IH.
Qed.

(** ** Tables *)

Ltac table := unfold pos_fits, kw_fits, given;
  cbn -[beq b fits nth_error keyword_value].

Lemma accepted_literals vs : accepted rules_literals vs <-> Forall literal vs.
Proof.
  rewrite (accepted_alt _ _ wf_literals). split.
  - intros [A [B _]]. apply Forall_forall. intros n I.
    destruct (is_attribute n) eqn:At.
    + destruct n; try discriminate. specialize (B _ _ _ _ I). unfold kw_fits in B.
      destruct B as [t [Q F]]. inversion Q; subst. apply fits_lit in F. exact F.
    + assert (P : In n (positionals vs)) by (apply in_positionals; auto).
      apply In_nth_error in P as [i P]. specialize (A _ _ P). unfold pos_fits in A.
      destruct A as [t [Q F]]. inversion Q; subst. apply fits_lit in F. exact F.
  - intros F. rewrite Forall_forall in F. split; [|split].
    + intros i p H. apply nth_error_In, in_positionals in H as [H _].
      exists lit. split; [reflexivity|]. apply fits_lit, F, H.
    + intros k v st w I. exfalso. apply (F _ I). reflexivity.
    + intros pos r t [[] _].
Qed.

Lemma literals_positional vs : Forall literal vs -> positionals vs = vs.
Proof.
  induction 1 as [|n vs L _ IH]; [reflexivity|]. unfold positionals in *. cbn.
  destruct n; cbn; rewrite ?IH; try reflexivity. exfalso. apply L. reflexivity.
Qed.

Lemma surplus_literals vs : Forall literal vs -> surplus rules_literals vs = vs.
Proof.
  intros F. rewrite (surplus_positional _ 0).
  - apply literals_positional, F.
  - reflexivity.
  - intros k v st w I. rewrite Forall_forall in F. exfalso. apply (F _ I). reflexivity.
Qed.

Lemma accepted_join vs :
  accepted rules_join vs <->
  exists sepn pieces, positionals vs = sepn :: pieces /\ Forall literal (sepn :: pieces) /\
    options vs (fun k v => k = b "trailing" /\ text_among [b "true"; b "false"] v).
Proof.
  rewrite (accepted_alt _ _ wf_join). split.
  - intros [A [B M]].
    assert (G : given (PInt 1) vs <> None).
    { apply M with (r := mandatory 1 lit) (t := lit); [rule|reflexivity]. }
    cbn in G. destruct (positionals vs) as [|sepn pieces] eqn:P; [cbn in G; congruence|].
    exists sepn, pieces. split; [reflexivity|]. split.
    + apply Forall_forall. intros n I. apply In_nth_error in I as [i I].
      specialize (A _ _ I). destruct i as [|i]; [apply fits_lit, A|].
      destruct A as [t [Q F]]. inversion Q; subst. apply fits_lit, F.
    + intros k v st w I. specialize (B _ _ _ _ I). revert B. table.
      destruct (beq k (b "trailing")) eqn:K; cbn -[fits b].
      * apply beq_eq in K. intros F. split; [exact K|]. apply (fits_one_of [b "true"; b "false"]); [discriminate|exact F].
      * intros [t [Q F]]. inversion Q; subst. apply fits_lit in F. exfalso. apply F. reflexivity.
  - intros [sepn [pieces [P [F O]]]]. split; [|split].
    + intros i p H. rewrite P in H. apply nth_error_In in H as I.
      rewrite Forall_forall in F. specialize (F _ I). destruct i; table.
      * apply fits_lit, F.
      * exists lit. split; [reflexivity|]. apply fits_lit, F.
    + intros k v st w I. destruct (O _ _ _ _ I) as [-> T]. table. rewrite beq_refl. cbn -[fits b].
      apply (fits_one_of [b "true"; b "false"]); [discriminate|exact T].
    + intros pos r t [[<-|[<-|[]]] Hp] Ht; [|discriminate].
      destruct Hp as [<-|[]]. cbn. rewrite P. discriminate.
Qed.

Lemma texts_iff ns l : texts ns = Some l <-> exists al, map (@Some atom) al = map atomic ns /\ l = map a_val al.
Proof.
  revert l. induction ns as [|n ns IH]; intros l; cbn.
  - split.
    + intros H. inversion H. exists []. auto.
    + intros [[|a al] [H ->]]; [reflexivity|discriminate].
  - destruct (atomic n) as [a|].
    + split.
      * destruct (texts ns) as [l'|] eqn:T; [|discriminate]. intros H. inversion H; subst.
        destruct (proj1 (IH l') eq_refl) as [al [A ->]]. exists (a :: al). cbn. rewrite A. auto.
      * intros [[|a' al] [H ->]]; [discriminate|]. cbn in H. inversion H; subst.
        rewrite (proj2 (IH (map a_val al))); [reflexivity|]. eauto.
    + split; [discriminate|]. intros [[|a' al] [H ->]]; discriminate.
Qed.

Lemma texts_literal ns : Forall literal ns <-> exists l, texts ns = Some l.
Proof.
  induction ns as [|n ns IH]; cbn.
  - split; [eauto|constructor].
  - rewrite Forall_cons_iff, IH. unfold literal. destruct (atomic n) as [a|].
    + destruct (texts ns) as [l|]; split.
      * intros _. exists (a_val a :: l). reflexivity.
      * intros _. split; [discriminate|]. exists l. reflexivity.
      * intros [_ [l H]]. discriminate.
      * intros [l H]. discriminate.
    + split; [intros [H _]; congruence|]. intros [l H]. discriminate.
Qed.

Lemma join_separated sep l : join sep l = separated sep l.
Proof.
  induction l as [|x l IH]; [reflexivity|]. destruct l as [|y l]; [cbn; rewrite app_nil_r; reflexivity|].
  cbn [join]. cbn [join] in IH. rewrite IH. cbn. rewrite <- app_assoc. reflexivity.
Qed.

Section WithEnv.
Variable E : env.

Notation ex f := (fun n s => run E f (TNode n) s).
Notation inv f := (fun name c ps s => run E f (TInvoke name c ps) s).

Lemma received_trim args : trim_first args = received args.
Proof. reflexivity. Qed.

(** A call of a builtin. *)
Lemma eval_builtin name m args n s r :
  find_builtin name = Some m -> is_call name args n ->
  eval E n s r <->
  settles (fun f => run_builtin E (ex f) (inv f) m (ref n s) (received args) (entered n s)) r.
Proof.
  intros F C. rewrite (eval_call E name args n s r C). apply invokes_builtin, F.
Qed.

(** Builtins that evaluate their arguments and need no more recursion. *)
Lemma eval_eager name m rs (k : call -> args -> list node -> state -> out) args n s r :
  find_builtin name = Some m ->
  (forall ex inv c ps s, run_builtin E ex inv m c ps s =
     let* '(x, vs, s1) := eager ex rs c ps s in k c x vs s1) ->
  is_call name args n ->
  eval E n s r <->
  exists q, evals E (received args) (entered n s) q /\
    r = bind q (fun '(vs, s1) =>
          let* x := arguments rs n vs in k (ref n s) x vs (noted n s s1)) /\ r <> OutOfFuel.
Proof.
  intros F K C. rewrite (eval_builtin name m args n s r F C).
  rewrite (settles_ext _ (fun f => bind (eager (ex f) rs (ref n s) (received args) (entered n s))
                                     (fun '(x, vs, s1) => k (ref n s) x vs s1)))
    by (intros f; apply K).
  rewrite settles_eager. reflexivity.
Qed.

Lemma eval_eager_ok name m rs (k : call -> args -> list node -> state -> out) args n s out s' :
  find_builtin name = Some m ->
  (forall ex inv c ps s, run_builtin E ex inv m c ps s =
     let* '(x, vs, s1) := eager ex rs c ps s in k c x vs s1) ->
  is_call name args n ->
  eval E n s (Ok (out, s')) <->
  exists vs s1 x, evals E (received args) (entered n s) (Ok (vs, s1)) /\
    arguments rs n vs = Ok x /\ k (ref n s) x vs (noted n s s1) = Ok (out, s').
Proof.
  intros F K C. rewrite (eval_eager name m rs k args n s _ F K C). split.
  - intros [q [Q [H _]]]. destruct q as [[vs s1]| | | |]; try discriminate. cbn in H.
    destruct (arguments rs n vs) as [x| | | |] eqn:A; try discriminate. exists vs, s1, x. auto.
  - intros [vs [s1 [x [Q [A H]]]]]. exists (Ok (vs, s1)). split; [exact Q|]. cbn. rewrite A. cbn.
    split; [auto|discriminate].
Qed.

(** Builtins that evaluate their arguments without rules. *)
Lemma eval_plain name m (k : call -> list node -> state -> out) args n s r :
  find_builtin name = Some m ->
  (forall ex inv c ps s, run_builtin E ex inv m c ps s =
     let* '(vs, s1) := exs ex ps s in k c vs s1) ->
  is_call name args n ->
  eval E n s r <->
  exists q, evals E (received args) (entered n s) q /\
    r = bind q (fun '(vs, s1) => k (ref n s) vs s1) /\ r <> OutOfFuel.
Proof.
  intros F K C. rewrite (eval_builtin name m args n s r F C).
  rewrite (settles_ext _ (fun f => bind (exs (ex f) (received args) (entered n s))
                                     (fun '(vs, s1) => k (ref n s) vs s1)))
    by (intros f; apply K).
  rewrite settles_then by apply growing_exs. reflexivity.
Qed.

Lemma eval_plain_ok name m (k : call -> list node -> state -> out) args n s out s' :
  find_builtin name = Some m ->
  (forall ex inv c ps s, run_builtin E ex inv m c ps s =
     let* '(vs, s1) := exs ex ps s in k c vs s1) ->
  is_call name args n ->
  eval E n s (Ok (out, s')) <->
  exists vs s1, evals E (received args) (entered n s) (Ok (vs, s1)) /\
    k (ref n s) vs s1 = Ok (out, s').
Proof.
  intros F K C. rewrite (eval_plain name m k args n s _ F K C). split.
  - intros [q [Q [H _]]]. destruct q as [[vs s1]| | | |]; try discriminate. cbn in H. eauto.
  - intros [vs [s1 [Q H]]]. exists (Ok (vs, s1)). split; [exact Q|]. cbn.
    split; [auto|discriminate].
Qed.

(** ** %join, %concat, %string, %raw, %number, %symbol *)

Lemma eval_join args n s out s' :
  is_call (b "join") args n ->
  eval E n s (Ok (out, s')) <->
  exists vs s1 sep pieces,
    evals E (received args) (entered n s) (Ok (vs, s1)) /\
    texts (positionals vs) = Some (sep :: pieces) /\
    options vs (fun k v => k = b "trailing" /\ text_among [b "true"; b "false"] v) /\
    out = [Str (in_place n (separated sep pieces ++
             (if beq (chosen (b "trailing") (b "false") vs) (b "true") then sep else [])))] /\
    s' = noted n s s1.
Proof.
  intros C.
  rewrite (eval_eager_ok (b "join") BJoin rules_join
    (fun c x _ s => let* sep := need as_atom (PInt 1) x in
       let* trailing := want as_atom (PStr (b "trailing")) x in
       let* l := rest_of as_atom x in
       let tail := if beq (val_or (b "false") trailing) (b "true") then a_val sep else [] in
       Ok ([Str (here c (join (a_val sep) (map a_val l) ++ tail))], s))
    args n s out s' eq_refl (fun _ _ _ _ _ => eq_refl) C).
  assert (R : forall vs x, arguments rules_join n vs = Ok x ->
    exists sep pieces al,
      texts (positionals vs) = Some (a_val sep :: pieces) /\
      options vs (fun k v => k = b "trailing" /\ text_among [b "true"; b "false"] v) /\
      need as_atom (PInt 1) x = Ok sep /\
      want as_atom (PStr (b "trailing")) x =
        Ok (match keyword_value (b "trailing") vs with Some v => atomic v | None => None end) /\
      rest_of as_atom x = Ok al /\ map a_val al = pieces).
  { intros vs x X. destruct (arguments_ok _ _ _ _ wf_join X) as [A _].
    apply accepted_join in A as [sepn [pieces [P [F O]]]].
    inversion F; subst. destruct (atomic sepn) as [sep|] eqn:S1; [|exfalso; apply H1; exact S1].
    destruct (rest_atoms _ _ _ _ wf_join X lit eq_refl eq_refl) as [al [R1 R2]].
    assert (S2 : surplus rules_join vs = pieces).
    { rewrite (surplus_positional _ 1), P; [reflexivity|intros [|i]; reflexivity|].
      intros k v st w I. destruct (O _ _ _ _ I) as [-> _]. reflexivity. }
    rewrite S2 in R2. exists sep, (map a_val al), al. rewrite P.
    split; [apply texts_iff; exists (sep :: al); cbn; rewrite R2, S1; auto|].
    split; [exact O|]. split.
    { apply (need_atom _ _ _ _ wf_join X (PInt 1) (mandatory 1 lit) sepn); [rule|cbn; rewrite P; reflexivity|exact S1|reflexivity]. }
    split; [|auto].
    apply (want_atom _ _ _ _ wf_join X (PStr (b "trailing"))
      (option_named (b "trailing") (TLiteral (one_of [b "true"; b "false"])))); [rule|reflexivity]. }
  assert (V : forall vs, val_or (b "false")
     (match keyword_value (b "trailing") vs with Some v => atomic v | None => None end)
     = chosen (b "trailing") (b "false") vs).
  { intros vs. unfold chosen. destruct (keyword_value (b "trailing") vs) as [v|]; [|reflexivity].
    destruct (atomic v); reflexivity. }
  split.
  - intros [vs [s1 [x [Q [X H]]]]]. destruct (R vs x X) as [sep [pieces [al [T [O [N1 [N2 [N3 N4]]]]]]]].
    rewrite N1, N2, N3 in H. cbn [bind] in H. rewrite V, N4, join_separated in H.
    apply ok_inj in H. inversion H; subst.
    exists vs, s1, (a_val sep), (map a_val al). auto.
  - intros [vs [s1 [sep [pieces [Q [T [O [-> ->]]]]]]]].
    destruct (arguments_spec rules_join n vs wf_join) as [A _].
    destruct A as [x [X _]].
    { apply accepted_join. destruct (positionals vs) as [|sepn ps] eqn:P; [discriminate|].
      exists sepn, ps. split; [reflexivity|]. split; [|exact O]. apply texts_literal. eauto. }
    destruct (R vs x X) as [sep' [pieces' [al [T' [_ [N1 [N2 [N3 N4]]]]]]]].
    rewrite T in T'. inversion T'; subst.
    exists vs, s1, x. split; [exact Q|]. split; [exact X|]. rewrite N1, N2, N3. cbn [bind].
    rewrite V, join_separated. reflexivity.
Qed.
End WithEnv.
