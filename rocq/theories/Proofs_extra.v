(** * Further consequences for builtin macros *)

From Coq Require Import String List Ascii Bool Arith NArith ZArith Lia Permutation.
From Verif Require Import Text Res Ast Args Env Scope State Bind Data Sorting Numbers Expander Parser
  Spec_args Spec_expand Spec_builtin Spec_bind Spec_control Proofs_text Proofs_ast Proofs_run
  Proofs_eval Proofs_args Proofs_builtin Proofs_simple Proofs_bind Proofs_control Proofs_more
  Proofs_get Spec_scope Proofs_scope.
Import ListNotations.

(** ** Rejected arguments *)

Ltac wf := split; [cbn; repeat constructor; cbn; intuition discriminate|repeat constructor; discriminate].

Lemma eager_well_formed name rs : In (name, rs) eager_rules -> well_formed rs.
Proof. cbn. intros I. repeat (destruct I as [I|I]; [inversion I; subst; wf|]). contradiction. Qed.

Section WithEnv.
Variable E : env.

Lemma eager_shape name rs : In (name, rs) eager_rules ->
  exists m k, find_builtin name = Some m /\
    forall ex inv c ps s, run_builtin E ex inv m c ps s = bind (eager ex rs c ps s) (k inv c).
Proof.
  cbn. intros I.
  repeat (destruct I as [I|I];
    [inversion I; subst; eexists; eexists; (split; [reflexivity|]); intros; cbv [run_builtin];
     reflexivity|]).
  contradiction.
Qed.

Lemma eager_rejects name rs args n s vs s1 :
  In (name, rs) eager_rules -> is_call name args n ->
  evals E (received args) (entered n s) (Ok (vs, s1)) -> ~ accepted rs vs ->
  exists e, eval E n s (Err e).
Proof.
  intros I C V A. destruct (arguments_spec rs n vs (eager_well_formed _ _ I)) as [_ R].
  destruct (R A) as [e X]. exists e.
  destruct (eager_shape name rs I) as [m [k [F K]]].
  rewrite (eval_builtin E name m args n s _ F C).
  apply (proj1 (evals_def E _ _ _)) in V as [_ [f V]]. split; [discriminate|]. exists f. intros f' L.
  rewrite K. unfold eager. rewrite (V f' L). cbn [bind]. change (c_node (ref n s)) with n.
  rewrite X. reflexivity.
Qed.
End WithEnv.

(** ** Paths of %get *)

Lemma reaches_app p1 p2 n k : reaches (p1 ++ p2) n k <-> exists m, reaches p1 n m /\ reaches p2 m k.
Proof.
  revert n. induction p1 as [|i p1 IH]; intros n; cbn.
  - split; [intros H; exists n; split; [constructor|exact H]|].
    intros [m [H1 H2]]. inversion H1; subst. exact H2.
  - split.
    + intros H. inversion H as [|? ? ? m ? S1 R]; subst. apply IH in R as [m' [R1 R2]].
      exists m'. split; [econstructor; eauto|exact R2].
    + intros [m [H1 H2]]. inversion H1 as [|? ? ? m' ? S1 R]; subst. econstructor; [exact S1|].
      apply IH. eauto.
Qed.

Lemma split_char_app c x y : forall cur,
  split_from [c] 0 cur (x ++ c :: y) = split_from [c] 0 cur x ++ split_from [c] 0 [] y.
Proof.
  induction x as [|d x IH]; intros cur; cbn.
  - rewrite Ascii.eqb_refl. reflexivity.
  - destruct (Ascii.eqb c d); cbn; rewrite IH; reflexivity.
Qed.
Lemma split_slash x y : split (b "/") (x ++ b "/" ++ y) = split (b "/") x ++ split (b "/") y.
Proof. exact (split_char_app "/"%char x y []). Qed.

Lemma get_path_error items v : (forall m, ~ reaches items v m) ->
  exists st, get_path items v = Err (EErr EGet st).
Proof. apply get_path_reaches. Qed.

(** ** Include candidates *)
Lemma candidates_plain dir name : tidy_dir dir -> plain_name name ->
  candidates true [dir] name = [dir ++ b "/" ++ name; dir ++ b "/" ++ name ++ b ".sex"] /\
  candidates false [dir] name = [dir ++ b "/" ++ name].
Proof.
  intros D N. pose proof (join_tidy dir name [] D N) as J. rewrite app_nil_r in J.
  unfold candidates. cbn [flat_map]. rewrite J, (with_sex_dir dir name D N). split; reflexivity.
Qed.

(** ** %concat and %join *)
Lemma separated_nil l : separated [] l = concat l.
Proof. destruct l as [|x l]; [reflexivity|]. cbn. reflexivity. Qed.

(** ** Applying a macro to each node *)

Lemma applying_results E name c drop ns s out s' :
  applying E name c drop ns s (Ok (out, s')) ->
  exists results states,
    out = concat (filter (fun xs => negb (drop xs)) results) /\
    length results = length ns /\ length states = S (length ns) /\
    nth_error states 0 = Some s /\ nth_error states (length ns) = Some s' /\
    forall i n, nth_error ns i = Some n ->
      exists xs s1 s2, nth_error results i = Some xs /\ nth_error states i = Some s1 /\
        invokes E name c [n] s1 (Ok (xs, s2)) /\ nth_error states (S i) = Some s2.
Proof.
  intros A. remember (Ok (out, s')) as r eqn:R. revert out s' R.
  induction A as [s|n ns s xs s1 q I A IH|n ns s q r I Fq]; intros out s' R.
  - inversion R; subst. exists [], [s']. repeat (split; [reflexivity|]). intros [|i] m H; discriminate.
  - destruct q as [[ys s3]| | | |]; cbn in R; try discriminate. inversion R; subst.
    destruct (IH ys s' eq_refl) as [rs [sts [-> [Len [Len2 [S0 [SL H]]]]]]].
    exists (xs :: rs), (s :: sts). split; [cbn; destruct (drop xs); reflexivity|].
    split; [cbn; congruence|]. split; [cbn; congruence|]. split; [reflexivity|]. split; [exact SL|].
    intros [|j] m J; cbn in J.
    + inversion J; subst. exists xs, s, s1. cbn. auto.
    + destruct (H j m J) as [o [t1 [t2 H']]]. exists o, t1, t2. exact H'.
  - subst r. destruct q; cbn in Fq; try discriminate; contradiction.
Qed.

(** ** Lambdas *)

Lemma lambda_not_builtin u : find_builtin (b "__lambda" ++ u) = None.
Proof. unfold find_builtin, builtins. cbn. reflexivity. Qed.

Section Lambda.
Variable E : env.
Hypothesis ORDER : forall seed l, Permutation (e_order E seed l) l.

(** The macro a lambda stands for, if its parameters are acceptable. *)
Lemma lambda_defines args n s head params :
  is_call (b "lambda") args n ->
  positionals (received args) = head :: tl (positionals (received args)) ->
  match head with Lst ps _ _ _ _ => params = ps | Sym _ => params = [head] | _ => False end ->
  length (rest_names params) <= 1 -> length (kwrest_names params) <= 1 ->
  let name := b "__lambda" ++ uuid E s (node_site n) in
  exists s1, eval E n s (Ok ([Sym (in_place n name)], s1)) /\
    defines (entered n s) name (Macro params (drop_positionals 1 (received args))) s1.
Proof.
  intros C P K R1 R2 name.
  destruct (create_macro_cases name params (drop_positionals 1 (received args)) (touch (ref n s) (entered n s)))
    as [[_ [_ Q]]|[[?|?] _]]; [|lia|lia].
  assert (T : touch (ref n s) (entered n s) = entered n s).
  { unfold touch, ref, entered. cbn. rewrite Nat.eqb_refl. reflexivity. }
  rewrite T in Q. eexists. split.
  - apply (eval_lambda E args n s _ C). rewrite P. cbn zeta. fold name. rewrite T.
    destruct head; try contradiction; subst params; rewrite Q; reflexivity.
  - split; [apply get_put_same|]. split; [|split; reflexivity].
    intros k N. apply get_put_other, N.
Qed.

Lemma lambda_applied u c args s params body r :
  get (b "__lambda" ++ u) (x_defs s) = Some (Macro params body) ->
  (forall vs s1, evals E args s (Ok (vs, s1)) -> x_defs s1 = x_defs s) ->
  invokes E (b "__lambda" ++ u) c args s r <->
  exists q, evals E args s q /\
    match q with
    | Ok (vs, s1) => called E (call_site c) (Macro params body) vs s1 r
    | _ => fails q r
    end.
Proof.
  intros G K. rewrite (invokes_macro E ORDER _ c args s r (lambda_not_builtin u)).
  split; intros [q [V H]]; exists q; (split; [exact V|]); destruct q as [[vs s1]| | | |]; try exact H.
  - rewrite (K vs s1 V), G in H. exact H.
  - rewrite (K vs s1 V), G. exact H.
Qed.
End Lambda.
