(** * Builtins that compute a result from their evaluated arguments *)

From Coq Require Import String List Ascii Bool Arith NArith Lia.
From Verif Require Import Text Res Ast Args Env Scope State Bind Data Sorting Expander Numbers
  Spec_args Spec_expand Spec_builtin Proofs_text Proofs_ast Proofs_run Proofs_eval Proofs_args
  Proofs_builtin.
Import ListNotations.

Lemma literal_atoms vs : Forall literal vs -> exists al, map (@Some atom) al = map atomic vs.
Proof.
  intros F. apply texts_literal in F as [l T]. apply texts_iff in T as [al [T _]]. eauto.
Qed.

Lemma some_inj (l l' : list atom) : map (@Some atom) l = map (@Some atom) l' -> l = l'.
Proof.
  revert l'. induction l as [|a l IH]; intros [|a' l'] H; try discriminate; [reflexivity|].
  inversion H. f_equal. auto.
Qed.

Lemma atoms_iff ns l : atoms ns = inl l <-> map (@Some atom) l = map atomic ns.
Proof.
  revert l. induction ns as [|n ns IH]; intros l; cbn.
  - split; [intros H; inversion H; reflexivity|]. destruct l; [reflexivity|discriminate].
  - destruct (atomic n) as [a|].
    + destruct (atoms ns) as [l'|m] eqn:A.
      * split.
        -- intros H. inversion H; subst. cbn. rewrite (proj1 (IH l') eq_refl). reflexivity.
        -- destruct l as [|a' l]; [discriminate|]. cbn. intros H. inversion H; subst.
           apply IH in H2. congruence.
      * split; [discriminate|]. destruct l as [|a' l]; [discriminate|]. cbn. intros H.
        inversion H. apply IH in H2. discriminate.
    + split; [discriminate|]. destruct l; discriminate.
Qed.

Lemma fold_concat (l : list atom) : forall acc,
  fold_left (fun acc a => acc ++ a_val a) l acc = acc ++ concat (map a_val l).
Proof.
  induction l as [|a l IH]; intros acc; cbn; [symmetry; apply app_nil_r|].
  rewrite IH, <- app_assoc. reflexivity.
Qed.

Lemma set_ws_same n : set_ws (leading_ws n) n = n.
Proof. destruct n as [[]|[]|[]|[]| |]; reflexivity. Qed.
Lemma set_ws_set w w' n : set_ws w (set_ws w' n) = set_ws w n.
Proof. destruct n as [[]|[]|[]|[]| |]; reflexivity. Qed.
Lemma leading_set w n : leading_ws (set_ws w n) = w.
Proof. destruct n; reflexivity. Qed.

Lemma respaced_eq w ns : set_first_ws w ns = respaced w ns.
Proof. reflexivity. Qed.

Section WithEnv.
Variable E : env.

Lemma eval_literals (make : atom -> node) name m args n s out s' :
  find_builtin name = Some m ->
  (forall ex inv, run_builtin E ex inv m = do_convert ex make) ->
  is_call name args n ->
  eval E n s (Ok (out, s')) <->
  exists vs s1 al,
    evals E (received args) (entered n s) (Ok (vs, s1)) /\
    map (@Some atom) al = map atomic vs /\ out = map make al /\ s' = noted n s s1.
Proof.
  intros Fb K C.
  rewrite (eval_eager_ok E name m rules_literals
    (fun c x _ s => let* l := rest_of as_atom x in Ok (map make l, s))
    args n s out s' Fb (fun ex inv c ps s => f_equal (fun g => g c ps s) (K ex inv)) C).
  split.
  - intros [vs [s1 [x [Q [X H]]]]]. destruct (arguments_ok _ _ _ _ wf_literals X) as [A _].
    apply accepted_literals in A.
    destruct (rest_atoms _ _ _ _ wf_literals X lit eq_refl eq_refl) as [al [R1 R2]].
    rewrite (surplus_literals vs A) in R2. rewrite R1 in H. cbn in H. inversion H; subst.
    exists vs, s1, al. auto.
  - intros [vs [s1 [al [Q [T [-> ->]]]]]].
    assert (A : Forall literal vs) by (apply texts_literal; eexists; apply texts_iff; eauto).
    destruct (arguments_spec rules_literals n vs wf_literals) as [B _].
    destruct B as [x [X _]]; [apply accepted_literals, A|].
    destruct (rest_atoms _ _ _ _ wf_literals X lit eq_refl eq_refl) as [al' [R1 R2]].
    rewrite (surplus_literals vs A), <- T in R2. apply some_inj in R2. subst.
    exists vs, s1, x. split; [exact Q|]. split; [exact X|]. rewrite R1. reflexivity.
Qed.

Lemma eval_concat args n s out s' :
  is_call (b "concat") args n ->
  eval E n s (Ok (out, s')) <->
  exists vs s1 pieces,
    evals E (received args) (entered n s) (Ok (vs, s1)) /\
    texts vs = Some pieces /\
    out = [Str (in_place n (concat pieces))] /\ s' = noted n s s1.
Proof.
  intros C.
  rewrite (eval_eager_ok E (b "concat") BConcat rules_literals
    (fun c x _ s => let* l := rest_of as_atom x in
       Ok ([Str (here c (fold_left (fun acc a => acc ++ a_val a) l []))], s))
    args n s out s' eq_refl (fun _ _ _ _ _ => eq_refl) C).
  split.
  - intros [vs [s1 [x [Q [X H]]]]]. destruct (arguments_ok _ _ _ _ wf_literals X) as [A _].
    apply accepted_literals in A.
    destruct (rest_atoms _ _ _ _ wf_literals X lit eq_refl eq_refl) as [al [R1 R2]].
    rewrite (surplus_literals vs A) in R2. rewrite R1 in H. cbn in H.
    rewrite fold_concat in H. inversion H; subst.
    exists vs, s1, (map a_val al). split; [exact Q|]. split; [apply texts_iff; eauto|]. auto.
  - intros [vs [s1 [pieces [Q [T [-> ->]]]]]].
    assert (A : Forall literal vs) by (apply texts_literal; eauto).
    apply texts_iff in T as [al [T ->]].
    destruct (arguments_spec rules_literals n vs wf_literals) as [B _].
    destruct B as [x [X _]]; [apply accepted_literals, A|].
    destruct (rest_atoms _ _ _ _ wf_literals X lit eq_refl eq_refl) as [al' [R1 R2]].
    rewrite (surplus_literals vs A), <- T in R2. apply some_inj in R2. subst.
    exists vs, s1, x. split; [exact Q|]. split; [exact X|]. rewrite R1. cbn [bind].
    rewrite fold_concat. reflexivity.
Qed.

Lemma eval_text (make : atom -> node) (k : ekind) name m args n s out s' :
  find_builtin name = Some m ->
  (forall ex inv, run_builtin E ex inv m = do_text ex make k) ->
  is_call name args n ->
  eval E n s (Ok (out, s')) <->
  exists vs s1 al,
    evals E (received args) (entered n s) (Ok (vs, s1)) /\
    map (@Some atom) al = map atomic vs /\
    out = [make (in_place n (flat_map (fun a => a_ws a ++ a_val a) al))] /\ s' = noted n s s1.
Proof.
  intros Fb K C.
  rewrite (eval_plain_ok E name m (fun c ns s => match atoms ns with
     | inr m => error k (node_site m)
     | inl l => Ok ([make (here c (flat_map (fun a => a_ws a ++ a_val a) l))], touch c s)
     end) args n s out s' Fb (fun ex inv c ps s => f_equal (fun g => g c ps s) (K ex inv)) C).
  split.
  - intros [vs [s1 [Q H]]]. destruct (atoms vs) as [l|m'] eqn:A; [|discriminate].
    inversion H; subst. apply atoms_iff in A. exists vs, s1, l. auto.
  - intros [vs [s1 [al [Q [T [-> ->]]]]]]. exists vs, s1. split; [exact Q|].
    apply atoms_iff in T. rewrite T. reflexivity.
Qed.

Lemma eval_do args n s r :
  is_call (b "do") args n ->
  eval E n s r <-> evals E (received args) (entered n s) r.
Proof. intros C. rewrite (eval_builtin E (b "do") BDo args n s r eq_refl C). reflexivity. Qed.

Lemma eval_splat args n s out s' :
  is_call (b "splat") args n ->
  eval E n s (Ok (out, s')) <->
  exists vs, evals E (received args) (entered n s) (Ok (vs, s')) /\
    out = flat_map splat_node vs.
Proof.
  intros C. rewrite (eval_plain_ok E (b "splat") BSplat (fun c ns s => Ok (flat_map splat_node ns, s))
    args n s out s' eq_refl (fun _ _ _ _ _ => eq_refl) C). split.
  - intros [vs [s1 [Q H]]]. inversion H; subst. eauto.
  - intros [vs [Q ->]]. eauto.
Qed.

Lemma eval_strip args n s out s' :
  is_call (b "strip") args n ->
  eval E n s (Ok (out, s')) <->
  exists vs, evals E (received args) (entered n s) (Ok (vs, s')) /\ out = respaced [] vs.
Proof.
  intros C. rewrite (eval_plain_ok E (b "strip") BStrip (fun c ns s => Ok (set_first_ws [] ns, s))
    args n s out s' eq_refl (fun _ _ _ _ _ => eq_refl) C). split.
  - intros [vs [s1 [Q H]]]. inversion H; subst. eauto.
  - intros [vs [Q ->]]. eauto.
Qed.

Lemma eval_list args n s out s' :
  is_call (b "list") args n ->
  eval E n s (Ok (out, s')) <->
  exists vs s1 st ew es w h t, evals E (received args) (entered n s) (Ok (vs, s1)) /\
    n = Lst (h :: t) st ew es w /\ out = [Lst vs st ew es w] /\ s' = noted n s s1.
Proof.
  intros C. rewrite (eval_plain_ok E (b "list") BList (fun c ns s => match c_node c with
     | Lst _ st ew es w => Ok ([Lst ns st ew es w], touch c s)
     | _ => Panic PExplicit end)
    args n s out s' eq_refl (fun _ _ _ _ _ => eq_refl) C).
  destruct C as [a [st [ew [es [w [Hn A]]]]]]. split.
  - intros [vs [s1 [Q H]]]. subst n. cbn in H. inversion H; subst.
    exists vs, s1, st, ew, es, w, (Sym a), args. auto.
  - intros [vs [s1 [st' [ew' [es' [w' [h [t [Q [Hn' [-> ->]]]]]]]]]]]. exists vs, s1. split; [exact Q|].
    unfold noted, ref, register. cbn [fst c_node]. rewrite Hn'. reflexivity.
Qed.

Lemma eval_log args n s out s' :
  is_call (b "log") args n ->
  eval E n s (Ok (out, s')) <->
  exists vs s1 words, evals E (received args) (entered n s) (Ok (vs, s1)) /\
    texts vs = Some words /\ out = [] /\
    s' = log_line (node_site n) (separated (b " ") words) (noted n s s1).
Proof.
  intros C. rewrite (eval_plain_ok E (b "log") BLog (fun c ns s => match atoms ns with
     | inr _ => error ELog (call_site c)
     | inl words => Ok ([], log_line (call_site c) (join (b " ") (map a_val words)) (touch c s))
     end) args n s out s' eq_refl (fun _ _ _ _ _ => eq_refl) C). split.
  - intros [vs [s1 [Q H]]]. destruct (atoms vs) as [l|m'] eqn:A; [|discriminate].
    apply atoms_iff in A. rewrite join_separated in H. inversion H; subst.
    exists vs, s1, (map a_val l). split; [exact Q|]. split; [apply texts_iff; eauto|]. auto.
  - intros [vs [s1 [words [Q [T [-> ->]]]]]]. exists vs, s1. split; [exact Q|].
    apply texts_iff in T as [al [T ->]]. apply atoms_iff in T. rewrite T, join_separated. reflexivity.
Qed.

Lemma eval_env args n s out s' :
  is_call (b "os/env") args n ->
  eval E n s (Ok (out, s')) <->
  exists v a text, evals E (received args) (entered n s) (Ok ([v], s')) /\
    atomic v = Some a /\ e_getenv E (a_val a) = Some text /\
    out = [Str (Atom text (a_site a) (a_ws a))].
Proof.
  intros C. rewrite (eval_plain_ok E (b "os/env") BEnv (fun c ns s => match ns with
     | [n] => match atomic n with
         | None => error EEnv (node_site n)
         | Some a => match e_getenv E (a_val a) with
             | None => error EEnv (a_site a)
             | Some v => Ok ([Str (Atom v (a_site a) (a_ws a))], s) end end
     | _ => error EEnv (call_site c) end) args n s out s' eq_refl (fun _ _ _ _ _ => eq_refl) C).
  split.
  - intros [vs [s1 [Q H]]]. destruct vs as [|v [|]]; try discriminate.
    destruct (atomic v) as [a|] eqn:A; [|discriminate].
    destruct (e_getenv E (a_val a)) as [t|] eqn:G; [|discriminate]. inversion H; subst.
    exists v, a, t. auto.
  - intros [v [a [t [Q [A [G ->]]]]]]. exists [v], s'. rewrite A, G. auto.
Qed.

(** ** %reverse *)

Lemma accepted_reverse vs :
  accepted rules_reverse vs <-> exists ns st ew es w, vs = [Lst ns st ew es w].
Proof.
  rewrite (accepted_alt _ _ wf_reverse). split.
  - intros [A [B M]].
    assert (G : given (PInt 1) vs <> None).
    { apply M with (r := mandatory 1 (TList [])) (t := TList []); [rule|reflexivity]. }
    assert (NA : forall n, In n vs -> is_attribute n = false).
    { intros n I. destruct n; try reflexivity. destruct (B _ _ _ _ I) as [t [Q _]]. discriminate. }
    assert (P : positionals vs = vs).
    { clear -NA. induction vs as [|v vs IH]; [reflexivity|]. unfold positionals in *. cbn.
      rewrite (NA v) by (left; reflexivity). cbn. f_equal. apply IH. intros n I. apply NA. right. exact I. }
    rewrite P in A. cbn in G. rewrite P in G. destruct vs as [|v [|v' vs]]; [cbn in G; congruence| |].
    + specialize (A 0 v eq_refl). apply fits_any_list in A as [ns [st [ew [es [w ->]]]]]. eauto 8.
    + destruct (A 1 v' eq_refl) as [t [Q _]]. discriminate.
  - intros [ns [st [ew [es [w ->]]]]]. split; [|split].
    + intros [|[|i]] p H; cbn in H; try discriminate. inversion H; subst.
      apply fits_any_list. eauto 8.
    + intros k v st' w' [I|[]]. discriminate.
    + intros pos r t [[<-|[]] [<-|[]]] _. discriminate.
Qed.

Lemma with_ws_reversal ns : reversal ns (with_ws_of (rev ns) ns).
Proof.
  unfold reversal, with_ws_of. rewrite <- map_rev.
  assert (G : forall xs ws, length xs = length ws ->
    map (set_ws []) (map (fun '(n, w) => set_ws (leading_ws w) n) (combine xs ws)) = map (set_ws []) xs /\
    map leading_ws (map (fun '(n, w) => set_ws (leading_ws w) n) (combine xs ws)) = map leading_ws ws).
  { induction xs as [|x xs IH]; intros [|w ws] L; try discriminate; [auto|].
    cbn. destruct (IH ws ltac:(cbn in L; lia)) as [I1 I2].
    rewrite I1, I2, set_ws_set, leading_set. auto. }
  apply G. apply rev_length.
Qed.

Lemma reversal_fun ns ns1 ns2 : reversal ns ns1 -> reversal ns ns2 -> ns1 = ns2.
Proof.
  intros [A B] [C D]. rewrite <- C in A. rewrite <- D in B. clear -A B.
  revert ns2 A B. induction ns1 as [|x xs IH]; intros [|y ys] A B; try discriminate; [reflexivity|].
  cbn in A, B. inversion A; inversion B. f_equal; [|apply IH; assumption].
  rewrite <- (set_ws_same x), <- (set_ws_same y), H2.
  rewrite <- (set_ws_set _ [] x), <- (set_ws_set _ [] y), H0. reflexivity.
Qed.

Lemma reversal_twice ns ns1 ns2 : reversal ns ns1 -> reversal ns1 ns2 -> ns2 = ns.
Proof.
  intros [A B] H. apply (reversal_fun ns1); [exact H|]. split; [|auto].
  rewrite A, rev_involutive. reflexivity.
Qed.

Lemma eval_reverse args n s r :
  is_call (b "reverse") args n ->
  eval E n s r <->
  exists q, evals E (received args) (entered n s) q /\
    match q with
    | Ok ([Lst ns st ew es w], s1) =>
        exists ns', reversal ns ns' /\ r = Ok ([Lst ns' st ew es w], noted n s s1)
    | Ok _ => exists e, r = Err e /\ forall vs s1, q = Ok (vs, s1) ->
                arguments rules_reverse n vs = Err e
    | _ => fails q r
    end.
Proof.
  intros C.
  rewrite (eval_eager E (b "reverse") BReverse rules_reverse
    (fun c x ps s => let* l := need as_list (PInt 1) x in
      match ps with
      | Lst _ st ew es w :: _ => Ok ([Lst (with_ws_of (rev l) l) st ew es w], s)
      | _ => Panic PUnreachable
      end) args n s r eq_refl (fun _ _ _ _ _ => eq_refl) C).
  assert (K : forall vs (s1 : state), (forall ns st ew es w, vs <> [Lst ns st ew es w]) ->
            exists e, arguments rules_reverse n vs = Err e).
  { intros vs s1 N. destruct (arguments_spec rules_reverse n vs wf_reverse) as [_ B]. apply B.
    intros A. apply accepted_reverse in A as [ns [st [ew [es [w ->]]]]]. exact (N _ _ _ _ _ eq_refl). }
  assert (L : forall ns st ew es w s1, 
     (let* x := arguments rules_reverse n [Lst ns st ew es w] in
      let* l := need as_list (PInt 1) x in
       Ok ([Lst (with_ws_of (rev l) l) st ew es w], noted n s s1)) =
     Ok ([Lst (with_ws_of (rev ns) ns) st ew es w], noted n s s1)).
  { intros ns st ew es w s1. reflexivity. }
  split; intros [q [Q H]]; exists q; (split; [exact Q|]).
  - destruct H as [H _]. destruct q as [[vs s1]|e|p| |]; try (cbn in *; congruence).
    2: { destruct Q as [Q _]. congruence. }
    cbn [bind] in H.
    assert (D : (exists ns st ew es w, vs = [Lst ns st ew es w]) \/
                (forall ns st ew es w, vs <> [Lst ns st ew es w])).
    { destruct vs as [|[] [|]]; try (right; discriminate). left. eauto 8. }
    destruct D as [[ns [st [ew [es [w ->]]]]] | D].
    + rewrite L in H. exists (with_ws_of (rev ns) ns). split; [apply with_ws_reversal|exact H].
    + destruct (K vs s1 D) as [e X]. rewrite X in H.
      assert (Z : exists e, r = Err e /\ forall vs' s1', Ok (vs, s1) = Ok (vs', s1') ->
                arguments rules_reverse n vs' = Err e).
      { exists e. split; [exact H|]. intros vs' s1' I. inversion I; subst. exact X. }
      destruct vs as [|[] [|]]; try exact Z. exfalso. exact (D _ _ _ _ _ eq_refl).
  - destruct q as [[vs s1]|e|p| |]; try (cbn in *; subst; split; (reflexivity || discriminate)).
    2: { destruct Q as [Q _]. congruence. }
    cbn [bind].
    assert (D : (exists ns st ew es w, vs = [Lst ns st ew es w]) \/
                (forall ns st ew es w, vs <> [Lst ns st ew es w])).
    { destruct vs as [|[] [|]]; try (right; discriminate). left. eauto 8. }
    destruct D as [[ns [st [ew [es [w ->]]]]] | D].
    + destruct H as [ns' [R ->]]. rewrite L. split; [|discriminate].
      rewrite (reversal_fun ns _ _ R (with_ws_reversal ns)). reflexivity.
    + assert (Z : exists e, r = Err e /\ forall vs' s1', Ok (vs, s1) = Ok (vs', s1') ->
                arguments rules_reverse n vs' = Err e).
      { destruct vs as [|[] [|]]; try exact H. exfalso. exact (D _ _ _ _ _ eq_refl). }
      destruct Z as [e [-> X]]. rewrite (X vs s1 eq_refl). split; [reflexivity|discriminate].
Qed.
End WithEnv.
