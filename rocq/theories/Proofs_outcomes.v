(** * All outcomes of macros, including the errors *)

From Coq Require Import String List Ascii Bool Arith NArith ZArith Lia Permutation.
From Verif Require Import Text Res Ast Env Scope State Bind Data Sorting Numbers Parser
  Spec_args Spec_expand Spec_builtin Spec_bind Spec_control Spec_scope Spec_sort Spec_errors Proofs_text Proofs_ast
  Proofs_run Proofs_eval Proofs_args Proofs_builtin Proofs_simple Proofs_bind Proofs_control Proofs_more
  Proofs_get Proofs_scope Proofs_sort Proofs_extra Proofs_errors.
From Verif Require Import Args Expander.
Import ListNotations.

Lemma refused_iff rs n vs {A} (r : res A) : well_formed rs ->
  refused rs n vs r <-> exists e, r = Err e /\ arguments rs n vs = Err e.
Proof.
  intros W. split.
  - intros [k [st [-> C]]]. exists (EErr k st). split; [reflexivity|]. apply arguments_err; assumption.
  - intros [[k st] [-> X]]. exists k, st. split; [reflexivity|]. apply arguments_err; assumption.
Qed.

Lemma refused_not rs n vs {A} (r : res A) : well_formed rs -> refused rs n vs r -> ~ accepted rs vs.
Proof. intros W [k [st [_ C]]]. apply (complains_exists rs W n). eauto. Qed.

Section WithEnv.
Variable E : env.
Notation ex f := (fun n s => run E f (TNode n) s).
Notation inv f := (fun name c ps s => run E f (TInvoke name c ps) s).

Lemma eager_refuses name rs args n s vs s1 r :
  In (name, rs) eager_rules -> is_call name args n ->
  evals E (received args) (entered n s) (Ok (vs, s1)) -> ~ accepted rs vs ->
  eval E n s r <-> refused rs n vs r.
Proof.
  intros I C V A. pose proof (eager_well_formed _ _ I) as W.
  destruct (arguments_spec rs n vs W) as [_ R]. destruct (R A) as [e X].
  assert (Z : eval E n s (Err e)).
  { destruct (eager_shape E name rs I) as [m [k [F K]]].
    rewrite (eval_builtin E name m args n s _ F C).
    apply (proj1 (evals_def E _ _ _)) in V as [_ [f V]]. split; [discriminate|]. exists f. intros f' L.
    rewrite K. unfold eager. rewrite (V f' L). cbn [bind]. change (c_node (ref n s)) with n.
    rewrite X. reflexivity. }
  rewrite (refused_iff rs n vs r W). split.
  - intros H. exists e. split; [|exact X]. exact (eval_fun E n s _ _ H Z).
  - intros [e' [-> X']]. rewrite X in X'. inversion X'; subst. exact Z.
Qed.

(** A macro that fails only if an argument does or is refused. *)
Lemma eager_outcome name rs args n s r (good : list node -> state -> list node * state -> Prop) :
  In (name, rs) eager_rules -> is_call name args n ->
  (forall out s', eval E n s (Ok (out, s')) <->
     exists vs s1, evals E (received args) (entered n s) (Ok (vs, s1)) /\ good vs s1 (out, s')) ->
  (forall vs s1, accepted rs vs -> exists o, good vs s1 o) ->
  (forall vs s1 o, good vs s1 o -> accepted rs vs) ->
  eval E n s r <->
  exists q, evals E (received args) (entered n s) q /\
    match q with
    | Ok (vs, s1) => (exists o, good vs s1 o /\ r = Ok o) \/ refused rs n vs r
    | _ => fails q r
    end.
Proof.
  intros I C G T T'. pose proof (eager_well_formed _ _ I) as W. split.
  - intros H. destruct (eager_shape E name rs I) as [m [k [F K]]].
    pose proof H as H0.
    rewrite (eval_builtin E name m args n s _ F C) in H.
    assert (Q : exists q, evals E (received args) (entered n s) q /\
              forall f, exists f', f <= f' /\ exs (ex f') (received args) (entered n s) = q).
    { destruct H as [N [f Hf]]. specialize (Hf f (le_n f)). rewrite K in Hf. unfold eager in Hf.
      assert (B : exs (ex f) (received args) (entered n s) <> OutOfFuel).
      { intros B. rewrite B in Hf. cbn [bind] in Hf. congruence. }
      pose proof (settles_at _ f (growing_exs E (received args) (entered n s)) B) as Z.
      eexists. split; [apply evals_def, Z|]. intros g. destruct Z as [_ [h Z]].
      exists (Nat.max g h). split; [lia|]. apply Z. lia. }
    destruct Q as [q [Q U]]. exists q. split; [exact Q|].
    assert (D : (exists vs s1, q = Ok (vs, s1)) \/ (forall vs s1, q <> Ok (vs, s1))).
    { destruct q as [[vs s1]| | | |]; try (right; discriminate). left. eauto. }
    destruct D as [[vs [s1 ->]]|D].
    + destruct (arguments_cases rs n vs W) as [[A _]|[A _]].
      * left. destruct (T vs s1 A) as [[out s'] O]. exists (out, s'). split; [exact O|].
        apply (eval_fun E n s _ _ H0). apply G. eauto.
      * right. apply (eager_refuses name rs args n s vs s1 r I C Q A). exact H0.
    + destruct H as [N [f Hf]]. destruct (U f) as [f' [L Hq]]. specialize (Hf f' L).
      rewrite K in Hf. unfold eager in Hf. rewrite Hq in Hf.
      destruct q as [[vs s1]|e|p| |]; cbn [bind] in Hf; subst; try reflexivity;
        [exfalso; exact (D _ _ eq_refl)|exfalso; apply N; reflexivity].
  - intros [q [Q H]].
    destruct q as [[vs s1]|e|p| |].
    + destruct H as [[[out s'] [O ->]]|H]; [apply G; eauto|].
      apply (eager_refuses name rs args n s vs s1 r I C Q); [|exact H].
      exact (refused_not rs n vs r W H).
    + destruct (eager_shape E name rs I) as [m [k [F K]]].
      rewrite (eval_builtin E name m args n s _ F C). cbn in H. subst.
      destruct Q as [_ [f Q]]. split; [discriminate|]. exists f. intros f' L. rewrite K. unfold eager.
      change (exs (ex f') (received args) (entered n s)) with (expand_nodes E f' (received args) (entered n s)).
      rewrite (Q f' L). reflexivity.
    + destruct (eager_shape E name rs I) as [m [k [F K]]].
      rewrite (eval_builtin E name m args n s _ F C). cbn in H. subst.
      destruct Q as [_ [f Q]]. split; [discriminate|]. exists f. intros f' L. rewrite K. unfold eager.
      change (exs (ex f') (received args) (entered n s)) with (expand_nodes E f' (received args) (entered n s)).
      rewrite (Q f' L). reflexivity.
    + destruct (eager_shape E name rs I) as [m [k [F K]]].
      rewrite (eval_builtin E name m args n s _ F C). cbn in H. subst.
      destruct Q as [_ [f Q]]. split; [discriminate|]. exists f. intros f' L. rewrite K. unfold eager.
      change (exs (ex f') (received args) (entered n s)) with (expand_nodes E f' (received args) (entered n s)).
      rewrite (Q f' L). reflexivity.
    + contradiction.
Qed.

(** ** %number, %symbol, %concat, %join *)

Lemma literals_outcome (make : atom -> node) name m args n s r :
  In (name, rules_literals) eager_rules -> find_builtin name = Some m ->
  (forall ex inv, run_builtin E ex inv m = do_convert ex make) ->
  is_call name args n ->
  eval E n s r <->
  exists q, evals E (received args) (entered n s) q /\
    match q with
    | Ok (vs, s1) =>
        (exists al, map (@Some atom) al = map atomic vs /\ r = Ok (map make al, noted n s s1)) \/
        refused rules_literals n vs r
    | _ => fails q r
    end.
Proof.
  intros I F K C.
  rewrite (eager_outcome name rules_literals args n s r
    (fun vs s1 o => exists al, map (@Some atom) al = map atomic vs /\ o = (map make al, noted n s s1)) I C).
  - split; intros [q [Q H]]; exists q; (split; [exact Q|]); destruct q as [[vs s1]| | | |]; try exact H.
    + destruct H as [[o [[al [A ->]] ->]]|H]; [left; eauto|right; exact H].
    + destruct H as [[al [A ->]]|H]; [left; eauto|right; exact H].
  - intros out s'. rewrite (eval_literals E make name m args n s out s' F K C). split.
    + intros [vs [s1 [al [Q [A [-> ->]]]]]]. eauto 8.
    + intros [vs [s1 [Q [al [A O]]]]]. inversion O; subst. eauto 8.
  - intros vs s1 A. apply accepted_literals in A. destruct (literal_atoms vs A) as [al L]. eauto.
  - intros vs s1 o [al [A _]]. apply accepted_literals, texts_literal. eexists. apply texts_iff. eauto.
Qed.

Lemma concat_outcome args n s r :
  is_call (b "concat") args n ->
  eval E n s r <->
  exists q, evals E (received args) (entered n s) q /\
    match q with
    | Ok (vs, s1) =>
        (exists pieces, texts vs = Some pieces /\
           r = Ok ([Str (in_place n (separated [] pieces))], noted n s s1)) \/
        refused rules_literals n vs r
    | _ => fails q r
    end.
Proof.
  intros C.
  rewrite (eager_outcome (b "concat") rules_literals args n s r
    (fun vs s1 o => exists pieces, texts vs = Some pieces /\
       o = ([Str (in_place n (separated [] pieces))], noted n s s1)) ltac:(cbn; tauto) C).
  - split; intros [q [Q H]]; exists q; (split; [exact Q|]); destruct q as [[vs s1]| | | |]; try exact H.
    + destruct H as [[o [[al [A ->]] ->]]|H]; [left; eauto|right; exact H].
    + destruct H as [[al [A ->]]|H]; [left; eauto|right; exact H].
  - intros out s'. rewrite (eval_concat E args n s out s' C). split.
    + intros [vs [s1 [al [Q [A [-> ->]]]]]]. rewrite <- separated_nil. eauto 8.
    + intros [vs [s1 [Q [al [A O]]]]]. rewrite separated_nil in O. inversion O; subst. eauto 8.
  - intros vs s1 A. apply accepted_literals in A. apply texts_literal in A as [l L]. eauto.
  - intros vs s1 o [al [A _]]. apply accepted_literals, texts_literal. eauto.
Qed.

Lemma join_outcome args n s r :
  is_call (b "join") args n ->
  eval E n s r <->
  exists q, evals E (received args) (entered n s) q /\
    match q with
    | Ok (vs, s1) =>
        (exists sep pieces, texts (positionals vs) = Some (sep :: pieces) /\
           options vs (fun k v => k = b "trailing" /\ text_among [b "true"; b "false"] v) /\
           r = Ok ([Str (in_place n (separated sep pieces ++
                      (if beq (chosen (b "trailing") (b "false") vs) (b "true") then sep else [])))],
                   noted n s s1)) \/
        refused rules_join n vs r
    | _ => fails q r
    end.
Proof.
  intros C.
  rewrite (eager_outcome (b "join") rules_join args n s r
    (fun vs s1 o => exists sep pieces, texts (positionals vs) = Some (sep :: pieces) /\
       options vs (fun k v => k = b "trailing" /\ text_among [b "true"; b "false"] v) /\
       o = ([Str (in_place n (separated sep pieces ++
                      (if beq (chosen (b "trailing") (b "false") vs) (b "true") then sep else [])))],
            noted n s s1)) ltac:(cbn; tauto) C).
  - split; intros [q [Q H]]; exists q; (split; [exact Q|]); destruct q as [[vs s1]| | | |]; try exact H.
    + destruct H as [[o [[sep [ps [A [B ->]]]] ->]]|H]; [left; eauto 6|right; exact H].
    + destruct H as [[sep [ps [A [B ->]]]]|H]; [left; eauto 8|right; exact H].
  - intros out s'. rewrite (eval_join E args n s out s' C). split.
    + intros [vs [s1 [sep [ps [Q [A [B [-> ->]]]]]]]]. eauto 8.
    + intros [vs [s1 [Q [sep [ps [A [B O]]]]]]]. inversion O; subst. eauto 10.
  - intros vs s1 A. apply accepted_join in A as [sepn [pieces [P [F O]]]].
    destruct (proj1 (texts_literal (positionals vs))) as [l L].
    { rewrite P. exact F. }
    rewrite P in L. pose proof L as L'. cbn [texts] in L. destruct (atomic sepn) as [a|]; [|discriminate].
    destruct (texts pieces) as [l'|] eqn:T; [|discriminate].
    eexists. exists (a_val a), l'. rewrite P, L'. inversion L; subst. auto.
  - intros vs s1 o [sep [ps [T [O _]]]]. apply accepted_join.
    destruct (positionals vs) as [|sepn rest] eqn:P; [discriminate|]. exists sepn, rest.
    split; [reflexivity|]. split; [|exact O]. apply texts_literal. eauto.
Qed.

(** ** Macros without rules *)

Lemma plain_outcome name m (k : call -> list node -> state -> out) args n s r :
  find_builtin name = Some m ->
  (forall ex inv c ps s, run_builtin E ex inv m c ps s =
     let* '(vs, s1) := exs ex ps s in k c vs s1) ->
  (forall vs s1, k (ref n s) vs s1 <> OutOfFuel) ->
  is_call name args n ->
  eval E n s r <->
  exists q, evals E (received args) (entered n s) q /\
    match q with
    | Ok (vs, s1) => r = k (ref n s) vs s1
    | _ => fails q r
    end.
Proof.
  intros F K N C. rewrite (eval_plain E name m k args n s r F K C).
  split; intros [q [Q H]]; exists q; (split; [exact Q|]).
  - destruct H as [H N']. destruct q as [[vs s1]| | | |]; cbn in *; auto.
  - destruct q as [[vs s1]|e|p| |]; cbn in *; try (subst; split; [reflexivity|discriminate]).
    + split; [exact H|]. rewrite H. apply N.
    + contradiction.
Qed.

Lemma atoms_first ns m : atoms ns = inr m <-> first_without literal ns m.
Proof.
  unfold first_without, literal. revert m. induction ns as [|n ns IH]; intros m; cbn.
  - split; [discriminate|]. intros [[|? ?] [? [H _]]]; discriminate.
  - destruct (atomic n) as [a|] eqn:A.
    + destruct (atoms ns) as [l|m'] eqn:Q.
      * split; [discriminate|]. intros [[|x before] [after [H [F N]]]].
        -- inversion H; subst. exfalso. apply N. congruence.
        -- inversion H; subst. inversion F; subst.
           assert (Z : inl l = inr m :> list atom + node) by (apply IH; eauto). discriminate.
      * split.
        -- intros H. inversion H; subst. destruct (proj1 (IH m) eq_refl) as [before [after [-> [F N]]]].
           exists (n :: before), after. split; [reflexivity|]. split; [|exact N]. constructor; [congruence|exact F].
        -- intros [[|x before] [after [H [F N]]]].
           ++ inversion H; subst. exfalso. apply N. congruence.
           ++ inversion H; subst. inversion F; subst.
              assert (Z : inr m' = inr m :> list atom + node) by (apply IH; eauto). congruence.
    + split.
      * intros H. inversion H; subst. exists [], ns. split; [reflexivity|]. split; [constructor|]. intros Z. exact (Z A).
      * intros [[|x before] [after [H [F N]]]]; inversion H; subst; [reflexivity|]. inversion F; congruence.
Qed.

Lemma atoms_texts ns l : atoms ns = inl l -> texts ns = Some (map a_val l).
Proof. intros A. apply texts_iff. apply atoms_iff in A. eauto. Qed.
Lemma atoms_none ns m : atoms ns = inr m -> texts ns = None.
Proof.
  intros A. destruct (texts ns) as [l|] eqn:T; [|reflexivity]. apply texts_iff in T as [al [T _]].
  apply atoms_iff in T. congruence.
Qed.

Lemma text_outcome (make : atom -> node) (k : ekind) name m args n s r :
  find_builtin name = Some m ->
  (forall ex inv, run_builtin E ex inv m = do_text ex make k) ->
  is_call name args n ->
  eval E n s r <->
  exists q, evals E (received args) (entered n s) q /\
    match q with
    | Ok (vs, s1) =>
        (exists al, map (@Some atom) al = map atomic vs /\
           r = Ok ([make (in_place n (flat_map (fun a => a_ws a ++ a_val a) al))], noted n s s1)) \/
        (exists v, first_without literal vs v /\ r = Err (EErr k (node_site v)))
    | _ => fails q r
    end.
Proof.
  intros F K C.
  rewrite (plain_outcome name m (fun c ns s => match atoms ns with
     | inr m => error k (node_site m)
     | inl l => Ok ([make (here c (flat_map (fun a => a_ws a ++ a_val a) l))], touch c s)
     end) args n s r F (fun ex inv c ps s => f_equal (fun g => g c ps s) (K ex inv))).
  2: { intros vs s1. destruct (atoms vs); discriminate. } 2: exact C.
  split; intros [q [Q H]]; exists q; (split; [exact Q|]); destruct q as [[vs s1]| | | |]; try exact H.
  - destruct (atoms vs) as [l|v] eqn:A; [left; exists l; apply atoms_iff in A; auto|].
    right. exists v. apply atoms_first in A. auto.
  - destruct H as [[al [A ->]]|[v [A ->]]]; [apply atoms_iff in A|apply atoms_first in A]; rewrite A; reflexivity.
Qed.

Lemma splat_outcome args n s r :
  is_call (b "splat") args n ->
  eval E n s r <->
  exists q, evals E (received args) (entered n s) q /\
    match q with
    | Ok (vs, s1) => r = Ok (flat_map splat_node vs, s1)
    | _ => fails q r
    end.
Proof.
  intros C. apply (plain_outcome (b "splat") BSplat (fun c ns s => Ok (flat_map splat_node ns, s))
    args n s r eq_refl (fun _ _ _ _ _ => eq_refl)); [discriminate|exact C].
Qed.

Lemma strip_outcome args n s r :
  is_call (b "strip") args n ->
  eval E n s r <->
  exists q, evals E (received args) (entered n s) q /\
    match q with
    | Ok (vs, s1) => r = Ok (respaced [] vs, s1)
    | _ => fails q r
    end.
Proof.
  intros C. apply (plain_outcome (b "strip") BStrip (fun c ns s => Ok (set_first_ws [] ns, s))
    args n s r eq_refl (fun _ _ _ _ _ => eq_refl)); [discriminate|exact C].
Qed.

Lemma list_outcome args n s r :
  is_call (b "list") args n ->
  eval E n s r <->
  exists q, evals E (received args) (entered n s) q /\
    match q with
    | Ok (vs, s1) => exists h t st ew es w, n = Lst (h :: t) st ew es w /\
                       r = Ok ([Lst vs st ew es w], noted n s s1)
    | _ => fails q r
    end.
Proof.
  intros C. rewrite (plain_outcome (b "list") BList (fun c ns s => match c_node c with
     | Lst _ st ew es w => Ok ([Lst ns st ew es w], touch c s)
     | _ => Panic PExplicit end) args n s r eq_refl (fun _ _ _ _ _ => eq_refl)).
  2: { intros vs s1. destruct (c_node _); discriminate. } 2: exact C.
  change (c_node (ref n s)) with n.
  destruct C as [a [st [ew [es [w [Hn _]]]]]].
  split; intros [q [Q H]]; exists q; (split; [exact Q|]); destruct q as [[vs s1]| | | |]; try exact H.
  - rewrite Hn in H |- *. do 6 eexists. split; [reflexivity|exact H].
  - destruct H as [h [t [st' [ew' [es' [w' [N ->]]]]]]]. rewrite N. reflexivity.
Qed.

Lemma logged_iff st text s s' : logged st text s s' <-> s' = log_line st text s.
Proof.
  split.
  - destruct s as [d v [l sd o src fr dg]], s' as [d' v' [l' sd' o' src' fr' dg']]. unfold logged, log_line. cbn.
    intros [-> [-> [-> [-> [-> [-> [-> ->]]]]]]]. reflexivity.
  - intros ->. repeat split.
Qed.

Lemma log_outcome args n s r :
  is_call (b "log") args n ->
  eval E n s r <->
  exists q, evals E (received args) (entered n s) q /\
    match q with
    | Ok (vs, s1) =>
        match texts vs with
        | Some words => exists s2, logged (node_site n) (separated (b " ") words) (noted n s s1) s2 /\
                          r = Ok ([], s2)
        | None => r = Err (EErr ELog (node_site n))
        end
    | _ => fails q r
    end.
Proof.
  intros C. rewrite (plain_outcome (b "log") BLog (fun c ns s => match atoms ns with
     | inr _ => error ELog (call_site c)
     | inl words => Ok ([], log_line (call_site c) (join (b " ") (map a_val words)) (touch c s))
     end) args n s r eq_refl (fun _ _ _ _ _ => eq_refl)).
  2: { intros vs s1. destruct (atoms vs); discriminate. } 2: exact C.
  split; intros [q [Q H]]; exists q; (split; [exact Q|]); destruct q as [[vs s1]| | | |]; try exact H.
  - destruct (atoms vs) as [l|v] eqn:A; [rewrite (atoms_texts _ _ A)|rewrite (atoms_none _ _ A); exact H].
    eexists. split; [apply logged_iff; reflexivity|]. rewrite join_separated in H. exact H.
  - destruct (atoms vs) as [l|v] eqn:A; [rewrite (atoms_texts _ _ A) in H|rewrite (atoms_none _ _ A) in H; exact H].
    destruct H as [s2 [L ->]]. apply logged_iff in L. subst. rewrite join_separated. reflexivity.
Qed.

Lemma env_outcome args n s r :
  is_call (b "os/env") args n ->
  eval E n s r <->
  exists q, evals E (received args) (entered n s) q /\
    match q with
    | Ok ([v], s1) =>
        match atomic v with
        | Some a =>
            match e_getenv E (a_val a) with
            | Some text => r = Ok ([Str (Atom text (a_site a) (a_ws a))], s1)
            | None => r = Err (EErr EEnv (a_site a))
            end
        | None => r = Err (EErr EEnv (node_site v))
        end
    | Ok _ => r = Err (EErr EEnv (node_site n))
    | _ => fails q r
    end.
Proof.
  intros C. rewrite (plain_outcome (b "os/env") BEnv (fun c ns s => match ns with
     | [n] => match atomic n with
         | None => error EEnv (node_site n)
         | Some a => match e_getenv E (a_val a) with
             | None => error EEnv (a_site a)
             | Some v => Ok ([Str (Atom v (a_site a) (a_ws a))], s) end end
     | _ => error EEnv (call_site c) end) args n s r eq_refl (fun _ _ _ _ _ => eq_refl)).
  2: { intros [|v [|]] s1; try discriminate. destruct (atomic v) as [a|]; [|discriminate].
       destruct (e_getenv E (a_val a)); discriminate. } 2: exact C.
  split; intros [q [Q H]]; exists q; (split; [exact Q|]); destruct q as [[vs s1]| | | |]; try exact H;
    destruct vs as [|v [|]]; try exact H; destruct (atomic v) as [a|]; try exact H;
    destruct (e_getenv E (a_val a)); exact H.
Qed.

Lemma format_args_ok ns l : format_args ns = inl l <-> Forall2 format_value ns l.
Proof.
  revert l. induction ns as [|n ns IH]; intros l.
  - cbn. split; [intros H; inversion H; constructor|]. intros H. inversion H. reflexivity.
  - assert (Eq : format_args (n :: ns) =
      match atomic (meant n) with
      | None => inr (meant n)
      | Some a => match format_args ns with
                  | inl l => inl ((match n with Attr k _ _ _ => Some k | _ => None end, a_val a) :: l)
                  | inr m => inr m
                  end
      end) by (destruct n; reflexivity).
    rewrite Eq. destruct (atomic (meant n)) as [a|] eqn:A.
    + destruct (format_args ns) as [l'|m].
      * split.
        -- intros H. inversion H; subst. constructor; [exists a; auto|]. apply IH. reflexivity.
        -- intros H. inversion H; subst.
           match goal with F : format_value _ _ |- _ => destruct F as [a' [A' ->]] end.
           match goal with F : Forall2 _ _ _ |- _ => apply IH in F; inversion F; subst end.
           rewrite A in A'. inversion A'. reflexivity.
      * split; [discriminate|]. intros H. inversion H; subst.
        match goal with F : Forall2 _ _ _ |- _ => apply IH in F; discriminate end.
    + split; [discriminate|]. intros H. inversion H; subst.
      match goal with F : format_value _ _ |- _ => destruct F as [a' [A' _]] end. congruence.
Qed.

Lemma format_args_bad ns : forall v, format_args ns = inr v ->
  exists m, first_without (fun m => literal (meant m)) ns m /\ v = meant m.
Proof.
  induction ns as [|n ns IH]; intros v; [discriminate|].
  assert (Eq : format_args (n :: ns) =
      match atomic (meant n) with
      | None => inr (meant n)
      | Some a => match format_args ns with
                  | inl l => inl ((match n with Attr k _ _ _ => Some k | _ => None end, a_val a) :: l)
                  | inr m => inr m
                  end
      end) by (destruct n; reflexivity).
  rewrite Eq. destruct (atomic (meant n)) as [a|] eqn:A.
  - destruct (format_args ns) as [l|m]; [discriminate|]. intros H. inversion H; subst.
    destruct (IH v eq_refl) as [m [[before [after [-> [F N]]]] V]]. exists m. split; [|exact V].
    exists (n :: before), after. split; [reflexivity|]. split; [|exact N]. constructor; [unfold literal; congruence|exact F].
  - intros H. inversion H; subst. exists n. split; [|reflexivity]. exists [], ns.
    split; [reflexivity|]. split; [constructor|]. intros Z. exact (Z A).
Qed.

Lemma first_without_unique (P : node -> Prop) ns m m' :
  first_without P ns m -> first_without P ns m' -> m = m'.
Proof.
  intros [x [y [-> [F N]]]] [x' [y' [Q [F' N']]]].
  revert x' Q F'. induction x as [|a x IH]; intros [|a' x'] Q F'.
  - inversion Q. reflexivity.
  - inversion Q; subst. inversion F'; subst. contradiction.
  - inversion Q; subst. inversion F; subst. contradiction.
  - inversion Q; subst. inversion F; inversion F'; subst. eauto.
Qed.

Lemma format_outcome args n s r :
  is_call (b "format") args n ->
  eval E n s r <->
  exists q, evals E (received args) (entered n s) q /\
    match q with
    | Ok (Str fmt :: rest, s1) =>
        if e_template E (a_val fmt) then
          (exists l, Forall2 format_value rest l /\
             match e_format E (a_val fmt) l with
             | Some text => r = Ok ([Str (in_place n text)], noted n s s1)
             | None => r = Err (EErr EFormat (a_site fmt))
             end) \/
          (exists v, first_without (fun v => literal (meant v)) rest v /\
             r = Err (EErr EFormat (node_site (meant v))))
        else r = Err (EErr EFormat (a_site fmt))
    | Ok (v :: _, _) => r = Err (EErr EFormat (node_site v))
    | Ok ([], _) => r = Err (EErr EFormat (node_site n))
    | _ => fails q r
    end.
Proof.
  intros C. rewrite (plain_outcome (b "format") BFormat (fun c ns s => match ns with
      | [] => error EFormat (call_site c)
      | Str fmt :: rest =>
          if e_template E (a_val fmt) then
            match format_args rest with
            | inr v => error EFormat (node_site v)
            | inl l =>
                match e_format E (a_val fmt) l with
                | Some text => Ok ([Str (here c text)], touch c s)
                | None => error EFormat (a_site fmt)
                end
            end
          else error EFormat (a_site fmt)
      | n :: _ => error EFormat (node_site n)
      end) args n s r eq_refl (fun _ _ _ _ _ => eq_refl)).
  2: { intros [|[] rest] s1; try discriminate. destruct (e_template E _); [|discriminate].
       destruct (format_args rest) as [l|v]; [|discriminate]. destruct (e_format E _ l); discriminate. }
  2: exact C.
  split; intros [q [Q H]]; exists q; (split; [exact Q|]); destruct q as [[vs s1]| | | |]; try exact H;
    destruct vs as [|[] rest]; try exact H.
  - destruct (e_template E (a_val a)); [|exact H].
    destruct (format_args rest) as [l|v] eqn:A.
    + left. exists l. apply format_args_ok in A. split; [exact A|]. destruct (e_format E (a_val a) l); exact H.
    + right. destruct (format_args_bad _ _ A) as [m [M ->]]. eauto.
  - destruct (e_template E (a_val a)); [|exact H].
    destruct H as [[l [A H]]|[v [M ->]]].
    + apply format_args_ok in A. rewrite A. destruct (e_format E (a_val a) l); exact H.
    + destruct (format_args rest) as [l|v'] eqn:A.
      * exfalso. apply format_args_ok in A. destruct M as [x [y [-> [F N]]]]. apply N. clear -A.
        apply Forall2_app_inv_l in A as [l1 [l2 [_ [A _]]]]. inversion A; subst.
        match goal with F : format_value _ _ |- _ => destruct F as [a [Q _]] end. unfold literal. congruence.
      * destruct (format_args_bad _ _ A) as [m [M' ->]]. rewrite (first_without_unique _ _ _ _ M M'). reflexivity.
Qed.

(** ** %get *)

Lemma stuck_iff items : forall v st, get_path items v = Err (EErr EGet st) <->
  exists m, stuck items v m /\ st = node_site m.
Proof.
  induction items as [|item items IH]; intros v st; cbn [get_path].
  - split; [discriminate|]. intros [m [[[|] [? [? [H _]]]] _]]; discriminate.
  - destruct (get_item_step item v) as [A Bd].
    destruct (get_item item v) as [k|e|p| |] eqn:G; cbn [bind].
    + rewrite IH. assert (K : step item v k) by (apply A; reflexivity). split.
      * intros [m [[before [i [after [-> [R N]]]]] ->]]. exists m. split; [|reflexivity].
        exists (item :: before), i, after. split; [reflexivity|]. split; [econstructor; eauto|exact N].
      * intros [m [[before [i [after [H [R N]]]]] ->]]. exists m. split; [|reflexivity].
        destruct before as [|i' before]; inversion H; subst.
        -- inversion R; subst. exfalso. exact (N k K).
        -- inversion R; subst. exists before, i, after. split; [reflexivity|]. split; [|exact N].
           match goal with S : step _ _ ?x |- _ => apply A in S; inversion S; subst end. assumption.
    + assert (Z : Err e = Err (EErr EGet (node_site v)) :> res node).
      { apply Bd. intros m S. apply A in S. discriminate. }
      inversion Z; subst. split.
      * intros H. inversion H; subst. exists v. split; [|reflexivity]. exists [], item, items.
        split; [reflexivity|]. split; [constructor|]. intros m S. apply A in S. discriminate.
      * intros [m [[before [i [after [H [R N]]]]] ->]].
        destruct before as [|i' before]; inversion H; subst.
        -- inversion R; subst. reflexivity.
        -- inversion R; subst. match goal with S : step _ _ _ |- _ => apply A in S; discriminate end.
    + assert (Z : Panic p = Err (EErr EGet (node_site v)) :> res node).
      { apply Bd. intros m S. apply A in S. discriminate. } discriminate.
    + assert (Z : Hang = Err (EErr EGet (node_site v)) :> res node).
      { apply Bd. intros m S. apply A in S. discriminate. } discriminate.
    + assert (Z : OutOfFuel = Err (EErr EGet (node_site v)) :> res node).
      { apply Bd. intros m S. apply A in S. discriminate. } discriminate.
Qed.

Lemma stuck_reaches items v m m' : stuck items v m -> ~ reaches items v m'.
Proof.
  intros S R. assert (Z : get_path items v = Err (EErr EGet (node_site m))) by (apply stuck_iff; eauto).
  apply (proj1 (get_path_reaches items v)) in R. congruence.
Qed.

Lemma get_outcome args n s r :
  is_call (b "get") args n ->
  eval E n s r <->
  exists q, evals E (received args) (entered n s) q /\
    match q with
    | Ok (vs, s1) =>
        (exists p path v, positionals vs = [p; v] /\ atomic p = Some path /\
           options vs (fun k v => k = b "separator" /\ literal v) /\
           let items := split (chosen (b "separator") (b "/") vs) (a_val path) in
           ((exists m, reaches items v m /\ r = Ok ([m], noted n s s1)) \/
            (exists m, stuck items v m /\ r = Err (EErr EGet (node_site m))))) \/
        refused rules_get n vs r
    | _ => fails q r
    end.
Proof.
  intros C. rewrite (eval_get E args n s r C).
  split; intros [q [Q H]]; exists q; (split; [exact Q|]); destruct q as [[vs s1]| | | |]; try exact H.
  - destruct H as [[p [path [v [P [A [O H]]]]]]|[_ H]]; [left|right; apply refused_iff; [exact wf_get|exact H]].
    exists p, path, v. split; [exact P|]. split; [exact A|]. split; [exact O|]. cbv zeta in *.
    destruct H as [H|[N H]]; [left; exact H|right].
    destruct (proj2 (get_path_reaches _ v) N) as [st G]. rewrite G in H. cbn in H.
    apply stuck_iff in G as [m [M ->]]. eauto.
  - destruct H as [[p [path [v [P [A [O H]]]]]]|H].
    + left. exists p, path, v. split; [exact P|]. split; [exact A|]. split; [exact O|]. cbv zeta in *.
      destruct H as [H|[m [M ->]]]; [left; exact H|right].
      split; [intros m'; eapply stuck_reaches, M|].
      rewrite (proj2 (stuck_iff _ v (node_site m))) by eauto. reflexivity.
    + right. split; [exact (refused_not _ _ _ _ wf_get H)|]. apply refused_iff; [exact wf_get|exact H].
Qed.

Lemma stuck_exactly items v :
  ((forall m, ~ reaches items v m) <-> exists m, stuck items v m) /\
  (forall m m', stuck items v m -> stuck items v m' -> m = m').
Proof.
  split; [split|].
  - intros N. destruct (proj2 (get_path_reaches items v) N) as [st G].
    apply stuck_iff in G as [m [M _]]. eauto.
  - intros [m M] m'. eapply stuck_reaches, M.
  - revert v. induction items as [|item items IH]; intros v m m' [[|x before] [i [after [H [R N]]]]]
      [[|x' before'] [i' [after' [H' [R' N']]]]]; try discriminate; inversion H; inversion H'; subst.
    + inversion R; inversion R'; subst. reflexivity.
    + inversion R; inversion R'; subst. match goal with S : step _ _ _ |- _ => exfalso; exact (N _ S) end.
    + inversion R; inversion R'; subst. match goal with S : step _ _ _ |- _ => exfalso; exact (N' _ S) end.
    + inversion R as [|? ? ? k ? S1 R1]; inversion R' as [|? ? ? k' ? S2 R2]; subst.
      match goal with X : step ?y _ k, Y : step ?y _ k' |- _ =>
        destruct (get_item_step y v) as [A' _]; apply A' in X; apply A' in Y; rewrite X in Y; inversion Y; subst end.
      apply (IH k'); [exists before, i, after|exists before', i', after']; auto.
Qed.

(** ** %reverse, %sort, %map, %filter, %apply, %for, %lambda *)

Lemma reverse_outcome args n s r :
  is_call (b "reverse") args n ->
  eval E n s r <->
  exists q, evals E (received args) (entered n s) q /\
    match q with
    | Ok (vs, s1) =>
        (exists ns st ew es w ns', vs = [Lst ns st ew es w] /\ reversal ns ns' /\
           r = Ok ([Lst ns' st ew es w], noted n s s1)) \/
        refused rules_reverse n vs r
    | _ => fails q r
    end.
Proof.
  intros C. rewrite (eval_reverse E args n s r C).
  split; intros [q [Q H]]; exists q; (split; [exact Q|]); destruct q as [[vs s1]| | | |]; try exact H.
  - assert (D : (exists ns st ew es w, vs = [Lst ns st ew es w]) \/
                (forall ns st ew es w, vs <> [Lst ns st ew es w])).
    { destruct vs as [|[] [|]]; try (right; discriminate). left. eauto 8. }
    destruct D as [[ns [st [ew [es [w ->]]]]] | D].
    + left. destruct H as [ns' [R ->]]. do 6 eexists. eauto.
    + right. apply refused_iff; [exact wf_reverse|].
      assert (Z : exists e, r = Err e /\ forall vs' s1', Ok (vs, s1) = Ok (vs', s1') ->
                arguments rules_reverse n vs' = Err e).
      { destruct vs as [|[] [|]]; try exact H. exfalso. exact (D _ _ _ _ _ eq_refl). }
      destruct Z as [e [-> X]]. eauto.
  - destruct H as [[ns [st [ew [es [w [ns' [-> [R ->]]]]]]]]|H]; [eauto|].
    pose proof (refused_not _ _ _ _ wf_reverse H) as NA. apply refused_iff in H; [|exact wf_reverse].
    destruct H as [e [-> X]].
    assert (Z : exists e', Err e = Err e' :> out /\ forall vs' s1', Ok (vs, s1) = Ok (vs', s1') ->
                arguments rules_reverse n vs' = Err e').
    { exists e. split; [reflexivity|]. intros vs' s1' I. inversion I; subst. exact X. }
    destruct vs as [|[] [|]]; try exact Z. exfalso. apply NA. apply accepted_reverse. eauto 8.
Qed.

Lemma functional_outcome name args n s r (R : atom -> list node -> state -> Prop) :
  (eval E n s r <->
   exists q, evals E (received args) (entered n s) q /\
    match q with
    | Ok (vs, s1) =>
        match positionals vs with
        | Sym f :: _ => R f vs s1
        | _ => exists e, r = Err e /\ arguments rules_map n vs = Err e
        end
    | _ => fails q r
    end) ->
  is_call name args n ->
  eval E n s r <->
  exists q, evals E (received args) (entered n s) q /\
    match q with
    | Ok (vs, s1) =>
        match positionals vs with
        | Sym f :: _ => R f vs s1
        | _ => refused rules_map n vs r
        end
    | _ => fails q r
    end.
Proof.
  intros X C. rewrite X.
  split; intros [q [Q H]]; exists q; (split; [exact Q|]); destruct q as [[vs s1]| | | |]; try exact H;
    destruct (positionals vs) as [|[] ?]; try exact H; apply (refused_iff rules_map n vs r wf_map); exact H.
Qed.

Lemma sort_outcome args n s r : is_call (b "sort") args n ->
  eval E n s r <->
  exists q, evals E (received args) (entered n s) q /\
    match q with
    | Ok (vs, s1) =>
        (exists v, positionals vs = [v] /\
           options vs (fun k v => (k = b "order" /\ text_among [b "ascending"; b "descending"] v) \/
                           (k = b "key" /\ exists a, v = Sym a)) /\
           let name := chosen (b "key") (b "do") vs in
           let key_site := match keyword_value (b "key") vs with
                           | Some k => node_site k | None => node_site n end in
           let cmp := by_key E (negb (beq (chosen (b "order") (b "ascending") vs) (b "ascending"))) in
           match v with
           | Lst nodes st ew es _ =>
               exists q1, keyed E name (ref n s) key_site nodes (noted n s s1) q1 /\
                 match q1 with
                 | Ok (items, s2) =>
                     exists q2, sorts E cmp items q2 /\
                       match q2 with
                       | Ok sorted => exists ns, arranged (map snd sorted) nodes ns /\
                           r = Ok ([Lst ns st ew es (leading_ws n)], noted n s s2)
                       | _ => fails q2 r
                       end
                 | _ => fails q1 r
                 end
           | _ => r = Err (EErr ESort (node_site v))
           end) \/
        refused rules_sort n vs r
    | _ => fails q r
    end.
Proof.
  intros C. rewrite (eval_sort E args n s r C).
  split; intros [q [Q H]]; exists q; (split; [exact Q|]); destruct q as [[vs s1]| | | |]; try exact H.
  - destruct H as [H|[_ H]]; [left; exact H|right]. apply (refused_iff rules_sort n vs r wf_sort). exact H.
  - destruct H as [H|H]; [left; exact H|right]. split; [exact (refused_not _ _ _ _ wf_sort H)|].
    apply (refused_iff rules_sort n vs r wf_sort). exact H.
Qed.

(** ** Parameters *)

Lemma amp_is n : amp n = is_some (rest_name n).
Proof.
  destruct (param_kinds n) as [[k [v [st [w ->]]]] | [NA [K | [K | K]]]]; [reflexivity| | |].
  - destruct K as [x [K1 [K2 K3]]]. rewrite K3. unfold is_rest_kw in K1. unfold amp.
    destruct (symbol n) as [y|]; [|reflexivity]. destruct (starts_with (b "&&") (a_val y)); [|discriminate].
    apply andb_false_r.
  - destruct K as [x [K1 [K0 [K2 K3]]]]. rewrite K2. unfold is_rest_kw in K1. unfold is_rest in K0. unfold amp.
    destruct (symbol n) as [y|]; [|discriminate]. destruct (starts_with (b "&&") (a_val y)); [discriminate|].
    destruct (starts_with (b "&") (a_val y)); [reflexivity|discriminate].
  - destruct K as [K1 [K0 [K2 K3]]]. rewrite K2. unfold is_rest in K0. unfold amp.
    destruct (symbol n) as [y|]; [|reflexivity].
    destruct (starts_with (b "&") (a_val y)); [discriminate|reflexivity].
Qed.
Lemma ampamp_is n : ampamp n = is_some (kwrest_name n).
Proof.
  destruct (param_kinds n) as [[k [v [st [w ->]]]] | [NA [K | [K | K]]]]; [reflexivity| | |].
  - destruct K as [x [K1 [K2 K3]]]. rewrite K2. unfold is_rest_kw in K1. unfold ampamp.
    destruct (symbol n) as [y|]; [|discriminate]. destruct (starts_with (b "&&") (a_val y)); [reflexivity|discriminate].
  - destruct K as [x [K1 [K0 [K2 K3]]]]. rewrite K3. unfold is_rest_kw in K1. unfold ampamp.
    destruct (symbol n) as [y|]; [|reflexivity]. destruct (starts_with (b "&&") (a_val y)); [discriminate|reflexivity].
  - destruct K as [K1 [K0 [K2 K3]]]. rewrite K3. unfold is_rest_kw in K1. unfold ampamp.
    destruct (symbol n) as [y|]; [|reflexivity].
    destruct (starts_with (b "&&") (a_val y)); [discriminate|reflexivity].
Qed.

Lemma second_filter (f : node -> bool) l p :
  (exists x t, List.filter f l = x :: p :: t) <->
  exists before after, l = before ++ p :: after /\ f p = true /\ length (List.filter f before) = 1.
Proof.
  assert (One : forall l, (exists t, List.filter f l = p :: t) <->
    exists before after, l = before ++ p :: after /\ f p = true /\ List.filter f before = []).
  { clear l. induction l as [|a l IH]; cbn.
    - split; [intros [t H]; discriminate|]. intros [[|] [? [H _]]]; discriminate.
    - destruct (f a) eqn:A.
      + split.
        * intros [t H]. inversion H; subst. exists [], l. auto.
        * intros [[|a' before] [after [H [P N]]]]; inversion H; subst; [eauto|].
          cbn in N. rewrite A in N. discriminate.
      + rewrite IH. split.
        * intros [before [after [-> [P N]]]]. exists (a :: before), after. cbn. rewrite A. auto.
        * intros [[|a' before] [after [H [P N]]]]; inversion H; subst; [congruence|].
          cbn in N. rewrite A in N. eauto. }
  induction l as [|a l IH]; cbn.
  - split; [intros [x [t H]]; discriminate|]. intros [[|] [? [H _]]]; discriminate.
  - destruct (f a) eqn:A.
    + split.
      * intros [x [t H]]. inversion H; subst. destruct (proj1 (One l)) as [before [after [-> [P N]]]]; [eauto|].
        exists (x :: before), after. cbn. rewrite A. cbn. rewrite N. auto.
      * intros [[|a' before] [after [H [P N]]]]; inversion H; subst; [discriminate|].
        cbn in N. rewrite A in N. cbn in N. inversion N as [N']. apply length_zero_iff_nil in N'.
        destruct (proj2 (One (before ++ p :: after))) as [t T]; [eauto|]. rewrite T. eauto.
    + rewrite IH. split.
      * intros [before [after [-> [P N]]]]. exists (a :: before), after. cbn. rewrite A. auto.
      * intros [[|a' before] [after [H [P N]]]]; inversion H; subst; [congruence|].
        cbn in N. rewrite A in N. eauto.
Qed.

Lemma is_some_iff {A} (o : option A) : is_some o = true <-> o <> None.
Proof. destruct o; cbn; split; congruence. Qed.

Lemma create_macro_outcome name params body s r :
  create_macro name params body s = r <->
  (length (rest_names params) <= 1 /\ length (kwrest_names params) <= 1 /\
   exists s1, r = Ok s1 /\ defines s name (Macro params body) s1) \/
  (exists p, excess_rest params p /\ r = Err (EErr EBindMultiRest (node_site p))).
Proof.
  assert (X : forall p, excess_rest params p <->
     (exists x t, List.filter amp params = x :: p :: t) \/
     (length (List.filter amp params) <= 1 /\ exists x t, List.filter ampamp params = x :: p :: t)).
  { intros p. rewrite !second_filter, amp_rest. unfold excess_rest. rewrite amp_is, ampamp_is. split.
    - intros [before [after [Q [[R L]|[L' [R L]]]]]].
      + left. exists before, after. rewrite amp_rest, is_some_iff. auto.
      + right. split; [exact L'|]. exists before, after. rewrite ampamp_rest, is_some_iff. auto.
    - intros [[before [after [Q [R L]]]]|[L' [before [after [Q [R L]]]]]]; exists before, after;
        (split; [exact Q|]); rewrite is_some_iff in R.
      + left. rewrite amp_rest in L. auto.
      + right. rewrite ampamp_rest in L. auto. }
  rewrite <- amp_rest, <- ampamp_rest. unfold create_macro.
  assert (Bad : forall y, excess_rest params y ->
     (forall p, excess_rest params p -> p = y) ->
     ~ (length (List.filter amp params) <= 1 /\ length (List.filter ampamp params) <= 1) ->
     error EBindMultiRest (node_site y) = r <->
     ((length (List.filter amp params) <= 1 /\ length (List.filter ampamp params) <= 1 /\
       exists s1, r = Ok s1 /\ defines s name (Macro params body) s1) \/
      (exists p, excess_rest params p /\ r = Err (EErr EBindMultiRest (node_site p))))).
  { intros y Y U N. split.
    - intros <-. right. exists y. auto.
    - intros [[A [B _]]|[p [P ->]]]; [tauto|]. rewrite (U p P). reflexivity. }
  destruct (List.filter amp params) as [|x1 [|x2 l]] eqn:F1.
  3: { apply Bad.
       - apply X. left. eauto.
       - intros p P. apply X in P as [[x [t T]]|[L _]]; [inversion T; reflexivity|cbn in L; lia].
       - cbn. lia. }
  all: destruct (List.filter ampamp params) as [|y1 [|y2 l']] eqn:F2.
  3,6: apply Bad;
       [apply X; right; split; [cbn; lia|eauto]
       |intros p P; apply X in P as [[x [t T]]|[_ [x [t T]]]]; [discriminate|inversion T; reflexivity]
       |cbn; lia].
  all: split;
    [intros <-; left; split; [cbn; lia|]; split; [cbn; lia|]; eexists; split; [reflexivity|apply put_defines]
    |intros [[_ [_ [s1 [-> D]]]]|[p [P _]]];
       [apply defines_put in D; subst; reflexivity
       |exfalso; apply X in P as [[x [t T]]|[_ [x [t T]]]]; discriminate]].
Qed.

Lemma define_outcome a params body st ew es w n s r :
  is_call (b "define") (Lst (Sym a :: params) st ew es w :: body) n ->
  eval E n s r <->
  (length (rest_names params) <= 1 /\ length (kwrest_names params) <= 1 /\
   exists s2, r = Ok ([], s2) /\ defines (entered n s) (a_val a) (Macro params body) s2) \/
  (exists p, excess_rest params p /\ r = Err (EErr EBindMultiRest (node_site p))).
Proof.
  intros C. rewrite (eval_builtin E (b "define") BDefine _ n s r eq_refl C).
  destruct (received_head (Lst (Sym a :: params) st ew es w) body) as [w' [-> _]].
  assert (S1 : settles (fun f => run_builtin E (ex f) (inv f) BDefine (ref n s)
                 (set_ws w' (Lst (Sym a :: params) st ew es w) :: body) (entered n s)) r <->
    settles (fun f => bind (create_macro (a_val a) params body (entered n s)) (fun s1 => Ok ([], s1))) r).
  { apply settles_ext. intros f. reflexivity. }
  rewrite S1, settles_const_iff. clear S1.
  destruct (proj1 (create_macro_outcome (a_val a) params body (entered n s) _) eq_refl)
    as [[A [B [s1 [Q D]]]]|[p [P Q]]]; rewrite Q; cbn [bind].
  - split.
    + intros [-> _]. left. eauto 6.
    + intros [[_ [_ [s2 [-> D']]]]|[p [P ->]]].
      * apply defines_put in D, D'. subst. split; [reflexivity|discriminate].
      * assert (Z : create_macro (a_val a) params body (entered n s) = Err (EErr EBindMultiRest (node_site p))).
        { apply create_macro_outcome. eauto. } congruence.
  - split.
    + intros [-> _]. right. eauto.
    + intros [[A [B [s2 [-> D]]]]|[p' [P' ->]]].
      * assert (Z : create_macro (a_val a) params body (entered n s) = Ok s2).
        { apply create_macro_outcome. left. eauto 6. } congruence.
      * assert (Z : create_macro (a_val a) params body (entered n s) = Err (EErr EBindMultiRest (node_site p'))).
        { apply create_macro_outcome. eauto. } rewrite Q in Z. inversion Z. split; [congruence|discriminate].
Qed.

Lemma define_excess a params body st ew es w n s r :
  is_call (b "define") (Lst (Sym a :: params) st ew es w :: body) n ->
  1 < length (rest_names params) \/ 1 < length (kwrest_names params) ->
  eval E n s r <-> exists p, excess_rest params p /\ r = Err (EErr EBindMultiRest (node_site p)).
Proof.
  intros C H. rewrite (define_outcome a params body st ew es w n s r C). split.
  - intros [[A [B _]]|X]; [lia|exact X].
  - intros X. right. exact X.
Qed.

Lemma lambda_outcome args n s r :
  is_call (b "lambda") args n ->
  eval E n s r <->
  match positionals (received args) with
  | head :: _ =>
      let name := b "__lambda" ++ uuid E s (node_site n) in
      let made params :=
        (length (rest_names params) <= 1 /\ length (kwrest_names params) <= 1 /\
         exists s1, r = Ok ([Sym (in_place n name)], s1) /\
           defines (noted n s (entered n s)) name (Macro params (drop_positionals 1 (received args))) s1) \/
        (exists p, excess_rest params p /\ r = Err (EErr EBindMultiRest (node_site p))) in
      match head with
      | Lst params _ _ _ _ => made params
      | Sym _ => made [head]
      | _ => r = Err (EErr ELambda (node_site head))
      end
  | [] => refused rules_lambda n (received args) r
  end.
Proof.
  intros C. rewrite (eval_lambda E args n s r C). cbv zeta.
  destruct (positionals (received args)) as [|head l]; [symmetry; apply refused_iff, wf_lambda|].
  set (name := b "__lambda" ++ uuid E s (node_site n)). set (body := drop_positionals 1 (received args)).
  change (touch (ref n s) (entered n s)) with (noted n s (entered n s)).
  assert (M : forall params,
    (r = bind (create_macro name params body (noted n s (entered n s)))
           (fun s1 => Ok ([Sym (in_place n name)], s1))) <->
    ((length (rest_names params) <= 1 /\ length (kwrest_names params) <= 1 /\
      exists s1, r = Ok ([Sym (in_place n name)], s1) /\
        defines (noted n s (entered n s)) name (Macro params body) s1) \/
     (exists p, excess_rest params p /\ r = Err (EErr EBindMultiRest (node_site p))))).
  { intros params.
    destruct (proj1 (create_macro_outcome name params body (noted n s (entered n s)) _) eq_refl)
      as [[A [B [s1 [Q D]]]]|[p [P Q]]]; rewrite Q; cbn [bind].
    - split.
      + intros ->. left. eauto 6.
      + intros [[_ [_ [s2 [-> D']]]]|[p [P ->]]].
        * apply defines_put in D, D'. subst. reflexivity.
        * assert (Z : create_macro name params body (noted n s (entered n s)) = Err (EErr EBindMultiRest (node_site p))).
          { apply create_macro_outcome. eauto. } congruence.
    - split.
      + intros ->. right. eauto.
      + intros [[A [B [s2 [-> D]]]]|[p' [P' ->]]].
        * assert (Z : create_macro name params body (noted n s (entered n s)) = Ok s2).
          { apply create_macro_outcome. left. eauto 6. } congruence.
        * assert (Z : create_macro name params body (noted n s (entered n s)) = Err (EErr EBindMultiRest (node_site p'))).
          { apply create_macro_outcome. eauto. } rewrite Q in Z. inversion Z. reflexivity. }
  destruct head; try apply M; reflexivity.
Qed.

(** ** %namespace *)

Lemma namespace_bad rest : forall sep st,
  namespace_options sep rest = Err (EErr ENamespace st) <-> bad_option rest st.
Proof.
  unfold bad_option, first_without. induction rest as [|n rest IH]; intros sep st.
  - cbn. split; [discriminate|]. intros [m [[[|] [? [H _]]] _]]; discriminate.
  - destruct n as [| | | | |k v st' w];
      try (cbn; split; [discriminate|]; intros [m [[[|] [? [H _]]] _]]; discriminate).
    cbn [namespace_options front_keywords]. destruct (beq k (b "separator")) eqn:K.
    + apply beq_eq in K. subst k. destruct (atomic v) as [a|] eqn:A.
      * rewrite IH. split.
        -- intros [m [[before [after [Q [F N]]]] M]]. exists m. split; [|exact M].
           exists (Attr (b "separator") v st' w :: before), after. rewrite Q. split; [reflexivity|].
           split; [|exact N]. constructor; [|exact F]. intros k' v' st2 w' H. inversion H; subst.
           split; [reflexivity|]. unfold literal. congruence.
        -- intros [m [[before [after [Q [F N]]]] M]]. destruct before as [|x before]; inversion Q; subst.
           ++ exfalso. apply N. intros k' v' st2 w' H. inversion H; subst.
              split; [reflexivity|]. unfold literal. congruence.
           ++ inversion F; subst. exists m. split; [|exact M]. exists before, after. auto.
      * split.
        -- intros H. inversion H; subst. exists (Attr (b "separator") v st' w). split; [|reflexivity].
           exists [], (front_keywords rest). split; [reflexivity|]. split; [constructor|].
           intros Z. destruct (Z _ _ _ _ eq_refl) as [_ L]. exact (L A).
        -- intros [m [[before [after [Q [F N]]]] M]]. destruct before as [|x before]; inversion Q; subst.
           ++ rewrite beq_refl in M. subst. reflexivity.
           ++ inversion F; subst. match goal with Z : forall k v st w, _ = _ -> _ |- _ =>
                destruct (Z _ _ _ _ eq_refl) as [_ L] end. exfalso. exact (L A).
    + split.
      * intros H. inversion H; subst. exists (Attr k v st w). split; [|rewrite K; reflexivity].
        exists [], (front_keywords rest). split; [reflexivity|]. split; [constructor|].
        intros Z. destruct (Z _ _ _ _ eq_refl) as [L _]. apply beq_neq in K. exact (K L).
      * intros [m [[before [after [Q [F N]]]] M]]. destruct before as [|x before]; inversion Q; subst.
        -- rewrite K in M. subst. reflexivity.
        -- inversion F; subst. match goal with Z : forall k v st w, _ = _ -> _ |- _ =>
             destruct (Z _ _ _ _ eq_refl) as [L _] end. apply beq_neq in K. contradiction.
Qed.

Lemma bad_option_not rest st : bad_option rest st -> ~ options (front_keywords rest) is_separator.
Proof.
  intros [n [[before [after [Q [_ N]]]] _]] O. apply N. intros k v st' w ->. apply (O k v st' w).
  rewrite Q. apply in_or_app. right. left. reflexivity.
Qed.

Hypothesis ORDER : forall seed l, Permutation (e_order E seed l) l.

Lemma namespace_outcome args n s r :
  is_call (b "namespace") args n ->
  eval E n s r <->
  exists q, evals E (received args) (copied (entered n s)) q /\
    match q with
    | Ok (vs, s1) =>
        match vs with
        | name :: rest =>
            match atomic name with
            | Some a =>
                (options (front_keywords rest) is_separator /\
                 exists defs, r = Ok (after_keywords rest,
                      new_maps 1 (set_defs defs (left_ (entered n s) s1))) /\
                   imported (a_val a ++ chosen (b "separator") (b "/") (front_keywords rest))
                     (x_defs s1) (x_defs s) defs) \/
                (exists st, bad_option rest st /\ r = Err (EErr ENamespace st))
            | None => r = Err (EErr ENamespace (node_site n))
            end
        | [] => r = Err (EErr ENamespace (node_site n))
        end
    | _ => fails q r
    end.
Proof.
  intros C. rewrite (eval_namespace E ORDER args n s r C).
  split; intros [q [Q H]]; exists q; (split; [exact Q|]); destruct q as [[vs s1]| | | |]; try exact H;
    destruct vs as [|name rest]; try exact H; destruct (atomic name) as [a|]; try exact H.
  - destruct H as [H|[_ [st [-> X]]]]; [left; exact H|right]. apply namespace_bad in X. eauto.
  - destruct H as [H|[st [X ->]]]; [left; exact H|right]. split; [eapply bad_option_not, X|].
    exists st. split; [reflexivity|]. apply namespace_bad, X.
Qed.

(** ** %for *)

Lemma for_outcome args n s r :
  is_call (b "for") args n ->
  eval E n s r <->
  match positionals (received args) with
  | p :: Sym i :: Lst items _ _ _ _ :: _ =>
      if beq (a_val i) (b "in") then
        exists q, evals E items (noted n s (entered n s)) q /\
          match q with
          | Ok (vs, s1) => exists q1,
              looping E p (drop_positionals 3 (received args)) vs (copied s1) q1 /\ r = closed s1 q1
          | _ => fails q r
          end
      else refused rules_for n (received args) r
  | _ => refused rules_for n (received args) r
  end.
Proof.
  intros C. rewrite (eval_for E ORDER args n s r C).
  pose proof (refused_iff rules_for n (received args) r wf_for) as X.
  destruct (positionals (received args)) as [|p [|[] [|[] ?]]]; try (symmetry; exact X).
  destruct (beq (a_val a) (b "in")); [reflexivity|symmetry; exact X].
Qed.

(** ** Calls of user macros *)

Lemma mismatch_exists st ps vs :
  (forall l, ~ binds_list ps vs l) <-> exists k bad, mismatch_args st ps vs k bad.
Proof.
  set (s := initial [] []). split.
  - intros N. destruct (bind_list_cases E ORDER st ps vs s) as [[s1 [l [_ [B _]]]]|[_ [[k bad] X]]].
    + exfalso. exact (N l B).
    + exists k, bad. exact (proj1 (bind_args_blames E ORDER st ps) vs s k bad X).
  - intros [k [bad M]] l B.
    destruct (bind_list_cases E ORDER st ps vs s) as [[s1 [l' [X _]]]|[N _]]; [|exact (N l B)].
    destruct (proj2 (bind_args_blames E ORDER st ps) vs s k bad M) as [Y|[_ [st' Y]]]; congruence.
Qed.

Lemma mismatch_pattern_exists p v :
  (forall l, ~ binds p v l) <-> exists k bad, mismatch p v k bad.
Proof.
  set (s := initial [] []). split.
  - intros N. destruct (bind_node_cases E ORDER p v s) as [[s1 [l [_ [B _]]]]|[_ [[k bad] X]]].
    + exfalso. exact (N l B).
    + exists k, bad. exact (proj1 (bind_node_blames E ORDER p) v s k bad X).
  - intros [k [bad M]] l B.
    destruct (bind_node_cases E ORDER p v s) as [[s1 [l' [X _]]]|[N _]]; [|exact (N l B)].
    destruct (proj2 (bind_node_blames E ORDER p) v s k bad M) as [Y|[_ [st' Y]]]; congruence.
Qed.

Lemma like_like {A} k st k' st' (r : res A) : like k st r -> like k' st' r ->
  k = k' /\ (k <> EBindExcessKeyword -> st = st').
Proof.
  intros [H|[-> [x H]]] [H'|[-> [x' H']]]; rewrite H in H'; inversion H'; subst; split; congruence.
Qed.

Lemma mismatch_same st ps vs k bad k' bad' :
  mismatch_args st ps vs k bad -> mismatch_args st ps vs k' bad' ->
  k = k' /\ (k <> EBindExcessKeyword -> bad = bad').
Proof.
  intros M M'. destruct (bind_args_blames E ORDER st ps) as [_ B].
  exact (like_like k bad k' bad' _ (B vs (initial [] []) _ _ M) (B vs _ _ _ M')).
Qed.

Lemma user_mismatch name args n s vs s1 m :
  find_builtin name = None -> is_call name args n ->
  evals E (received args) (entered n s) (Ok (vs, s1)) -> get name (x_defs s1) = Some m ->
  (forall l, ~ binds_list (m_params m) vs l) ->
  exists k bad, eval E n s (Err (EErr k bad)) /\ mismatch_args (node_site n) (m_params m) vs k bad.
Proof.
  intros F C V G N.
  destruct (bind_list_cases E ORDER (node_site n) (m_params m) vs (copied s1)) as [[s2 [l [_ [B _]]]]|[_ [[k bad] X]]].
  - exfalso. exact (N l B).
  - exists k, bad. split; [|exact (proj1 (bind_args_blames E ORDER _ _) vs _ k bad X)].
    apply (eval_user E ORDER name args n s _ F C). exists (Ok (vs, s1)). split; [exact V|]. rewrite G.
    apply called_mismatch; assumption.
Qed.

Lemma user_mismatched name args n s vs s1 m r :
  find_builtin name = None -> is_call name args n ->
  evals E (received args) (entered n s) (Ok (vs, s1)) -> get name (x_defs s1) = Some m ->
  (forall l, ~ binds_list (m_params m) vs l) ->
  eval E n s r ->
  exists k st, r = Err (EErr k st) /\ mismatch_args (node_site n) (m_params m) vs k st.
Proof.
  intros F C V G N H. destruct (user_mismatch name args n s vs s1 m F C V G N) as [k [st [H' M]]].
  exists k, st. split; [|exact M]. exact (eval_fun E n s _ _ H H').
Qed.
End WithEnv.

Lemma lazy_refuses E name rs args n s r : (forall seed l, Permutation (e_order E seed l) l) ->
  In (name, rs) [(b "for", rules_for); (b "lambda", rules_lambda)] -> is_call name args n ->
  ~ accepted rs (received args) ->
  eval E n s r <-> refused rs n (received args) r.
Proof.
  intros O [I|[I|[]]] C A; inversion I; subst.
  - rewrite (for_outcome E O args n s r C).
    destruct (positionals (received args)) as [|p [|[] [|[] ?]]] eqn:P; try reflexivity.
    destruct (beq (a_val a) (b "in")) eqn:Q; [|reflexivity]. exfalso. apply A. apply accepted_for.
    apply beq_eq in Q. do 8 eexists. eauto.
  - rewrite (lambda_outcome E args n s r C).
    destruct (positionals (received args)) as [|p l] eqn:P; [reflexivity|]. exfalso. apply A.
    apply accepted_lambda. congruence.
Qed.
