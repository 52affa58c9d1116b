(** * Expansion, budget-free: one equation per construct *)

From Coq Require Import String List Ascii Bool Arith Lia.
From Verif Require Import Text Res Ast Env Scope State Args Bind Data Sorting Expander
  Spec_expand Proofs_run Proofs_text Proofs_ast.
Import ListNotations.

Section WithEnv.
Variable E : env.

Notation ex f := (fun n s => run E f (TNode n) s).
Notation inv f := (fun name c ps s => run E f (TInvoke name c ps) s).

Lemma eval_unfold n s r :
  eval E n s r <-> settles (fun f => expand_one (ex f) (inv f) n s) r.
Proof. unfold eval, expand_node. rewrite settles_S by reflexivity. reflexivity. Qed.

Lemma invokes_unfold name c ps s r :
  invokes E name c ps s r <-> settles (fun f => invoke E (ex f) (inv f) name c ps s) r.
Proof. unfold invokes, expand_invocation. rewrite settles_S by reflexivity. reflexivity. Qed.

Lemma settles_const_iff {A} (r r' : res A) :
  settles (fun _ => r) r' <-> r' = r /\ r <> OutOfFuel.
Proof.
  split.
  - intros H. assert (r' = r); [|subst; split; [reflexivity|apply H]].
    destruct H as [_ [f F]]. symmetry. exact (F f (le_n f)).
  - intros [-> N]. apply settles_const, N.
Qed.

(** Evaluation of subterms, then a computation without further recursion. *)
Lemma settles_then {A B} (m : nat -> res A) (k : A -> res B) r :
  growing m ->
  settles (fun f => bind (m f) k) r <-> exists q, settles m q /\ r = bind q k /\ r <> OutOfFuel.
Proof.
  intros G. rewrite (settles_bind m (fun _ => k) r G). split.
  - intros [[a [S1 S2]] | [q [S1 F]]].
    + apply settles_const_iff in S2 as [-> N]. exists (Ok a). auto.
    + exists q. split; [exact S1|]. destruct q; cbn in *; try contradiction; subst;
        split; (reflexivity || discriminate).
  - intros [q [S1 [H N]]]. destruct q as [a|e|p| |]; cbn in H.
    + left. exists a. split; [exact S1|]. subst. apply settles_const, N.
    + right. exists (Err e). auto.
    + right. exists (Panic p). auto.
    + right. exists Hang. auto.
    + destruct S1. congruence.
Qed.

Lemma growing_exs ns s : growing (fun f => exs (ex f) ns s).
Proof. apply growing_nodes. Qed.

Lemma evals_def ns s r : evals E ns s r <-> settles (fun f => exs (ex f) ns s) r.
Proof. reflexivity. Qed.

Lemma evals_nil s r : evals E [] s r <-> r = Ok ([], s).
Proof.
  rewrite evals_def. cbn [exs]. rewrite settles_const_iff.
  split; [tauto|]. intros ->. split; [reflexivity|discriminate].
Qed.

Lemma evals_cons n ns s r :
  evals E (n :: ns) s r <->
  (exists xs s1 q, eval E n s (Ok (xs, s1)) /\ evals E ns s1 q /\
     r = bind q (fun '(ys, s2) => Ok (xs ++ ys, s2))) \/
  (exists q, eval E n s q /\ fails q r).
Proof.
  rewrite evals_def. cbn [exs].
  assert (G : growing (fun f => run E f (TNode n) s)) by apply growing_run.
  rewrite (settles_bind (fun f => run E f (TNode n) s)
             (fun f '(xs, s0) => bind (exs (ex f) ns s0)
                                   (fun '(ys, s1) => Ok (xs ++ ys, s1))) r G).
  split.
  - intros [[[xs s1] [S1 S2]] | H]; [left|right; exact H].
    apply settles_then in S2 as [q [S2 [-> N]]]; [|apply growing_exs].
    exists xs, s1, q. auto.
  - intros [[xs [s1 [q [S1 [S2 ->]]]]] | H]; [left|right; exact H].
    exists (xs, s1). split; [exact S1|]. apply settles_then; [apply growing_exs|].
    exists q. split; [exact S2|split; [reflexivity|]]. destruct S2 as [N _].
    destruct q as [[ys s2]| | | |]; cbn; congruence.
Qed.

Lemma evals_cons_ok n ns s zs s2 :
  evals E (n :: ns) s (Ok (zs, s2)) <->
  exists xs s1 ys, eval E n s (Ok (xs, s1)) /\ evals E ns s1 (Ok (ys, s2)) /\ zs = xs ++ ys.
Proof.
  rewrite evals_cons. split.
  - intros [[xs [s1 [q [S1 [S2 H]]]]] | [q [_ F]]].
    + destruct q as [[ys s2']| | | |]; cbn in H; try discriminate. inversion H; subst.
      exists xs, s1, ys. auto.
    + destruct q; cbn in F; congruence || contradiction.
  - intros [xs [s1 [ys [S1 [S2 ->]]]]]. left. exists xs, s1, (Ok (ys, s2)). auto.
Qed.

Lemma evals_one_ok n s xs s1 : evals E [n] s (Ok (xs, s1)) <-> eval E n s (Ok (xs, s1)).
Proof.
  rewrite evals_cons_ok. split.
  - intros [xs' [s1' [ys [S1 [S2 ->]]]]]. apply evals_nil in S2. inversion S2; subst.
    rewrite app_nil_r. exact S1.
  - intros H. exists xs, s1, []. split; [exact H|]. rewrite app_nil_r. split; [|reflexivity].
    apply evals_nil. reflexivity.
Qed.

Lemma evals_app_ok ns ms : forall s zs s2,
  evals E (ns ++ ms) s (Ok (zs, s2)) <->
  exists xs s1 ys, evals E ns s (Ok (xs, s1)) /\ evals E ms s1 (Ok (ys, s2)) /\ zs = xs ++ ys.
Proof.
  induction ns as [|n ns IH]; intros s zs s2; cbn [app].
  - split.
    + intros H. exists [], s, zs. rewrite evals_nil. auto.
    + intros [xs [s1 [ys [H1 [H2 ->]]]]]. apply evals_nil in H1. inversion H1; subst. exact H2.
  - rewrite evals_cons_ok. split.
    + intros [xs [s1 [ys [H1 [H2 ->]]]]]. apply IH in H2 as [us [s3 [vs [H2 [H3 ->]]]]].
      exists (xs ++ us), s3, vs. rewrite app_assoc. split; [|auto].
      apply evals_cons_ok. exists xs, s1, us. auto.
    + intros [xs [s1 [ys [H1 [H2 ->]]]]]. apply evals_cons_ok in H1 as [us [s3 [vs [H1 [H3 ->]]]]].
      exists us, s3, (vs ++ ys). rewrite app_assoc. split; [exact H1|]. split; [|reflexivity].
      apply IH. exists vs, s1, ys. auto.
Qed.

Lemma eval_fun n s r r' : eval E n s r -> eval E n s r' -> r = r'.
Proof. apply settles_fun. Qed.
Lemma evals_fun ns s r r' : evals E ns s r -> evals E ns s r' -> r = r'.
Proof. apply settles_fun. Qed.
Lemma invokes_fun name c ps s r r' :
  invokes E name c ps s r -> invokes E name c ps s r' -> r = r'.
Proof. apply settles_fun. Qed.

(** ** Calls *)

Lemma percent name : starts_with (b "%") (b "%" ++ name) = true.
Proof. reflexivity. Qed.

Lemma eval_call name args n s r :
  is_call name args n ->
  eval E n s r <-> invokes E name (ref n s) (received args) (entered n s) r.
Proof.
  intros [a [st [ew [es [w [-> A]]]]]].
  rewrite eval_unfold. cbn [expand_one symbol]. rewrite A, percent.
  change (skipn 1 (b "%" ++ name)) with name.
  unfold ref, entered. cbn [fst snd register]. unfold register. cbn [fst snd].
  unfold invokes, expand_invocation. reflexivity.
Qed.

Lemma invokes_builtin name m c ps s r :
  find_builtin name = Some m ->
  invokes E name c ps s r <->
  settles (fun f => run_builtin E (ex f) (inv f) m c ps s) r.
Proof. intros H. rewrite invokes_unfold. unfold invoke. rewrite H. reflexivity. Qed.

Lemma invokes_user name c ps s r :
  find_builtin name = None ->
  invokes E name c ps s r <-> settles (fun f => call_macro E (ex f) name c ps s) r.
Proof. intros H. rewrite invokes_unfold. unfold invoke. rewrite H. reflexivity. Qed.

(** Builtins that evaluate their arguments, and then need no more
    recursion. *)
Lemma settles_eager {B} rs c ps s (k : args * list node * state -> res B) r :
  settles (fun f => bind (eager (ex f) rs c ps s) k) r <->
  exists q, evals E ps s q /\
    r = bind q (fun '(ns, s1) =>
          let* x := arguments rs (c_node c) ns in k (x, ns, touch c s1)) /\ r <> OutOfFuel.
Proof.
  transitivity (settles (fun f => bind (exs (ex f) ps s)
    (fun '(ns, s1) => let* x := arguments rs (c_node c) ns in k (x, ns, touch c s1))) r).
  - apply settles_ext. intros f. unfold eager.
    destruct (exs (ex f) ps s) as [[ns s1]| | | |]; cbn; try reflexivity.
    destruct (arguments rs (c_node c) ns); reflexivity.
  - rewrite settles_then by apply growing_exs. reflexivity.
Qed.

(** ** Macro-free trees *)

Lemma macro_free_list ns st ew es w :
  macro_free (Lst ns st ew es w) <-> Forall macro_free ns.
Proof.
  unfold macro_free. cbn [symbols]. induction ns as [|n ns IH]; cbn [flat_map].
  - split; constructor.
  - rewrite Forall_app, IH, Forall_cons_iff. reflexivity.
Qed.

Definition same_but_vec (s s' : state) : Prop :=
  x_defs s' = x_defs s /\ x_world s' = x_world s.

Lemma same_refl s : same_but_vec s s.
Proof. split; reflexivity. Qed.
Lemma same_trans s1 s2 s3 : same_but_vec s1 s2 -> same_but_vec s2 s3 -> same_but_vec s1 s3.
Proof. intros [A B] [C D]. split; congruence. Qed.

Lemma eval_atom n s : macro_free n ->
  match n with Lst _ _ _ _ _ | Attr _ _ _ _ => False | _ => True end ->
  eval E n s (Ok ([n], s)).
Proof.
  intros M H. rewrite eval_unfold. destruct n as [a|a|a|a| |]; try contradiction; cbn [expand_one];
    try (apply settles_const; discriminate).
  inversion M as [|? ? A _]; subst. rewrite A. apply settles_const. discriminate.
Qed.

Definition keeps (n : node) : Prop :=
  macro_free n -> forall s, exists s', eval E n s (Ok ([n], s')) /\ same_but_vec s s'.

Lemma evals_keep ns : Forall keeps ns -> Forall macro_free ns -> forall s, exists s',
  evals E ns s (Ok (ns, s')) /\ same_but_vec s s'.
Proof.
  induction 1 as [|n ns K F IH]; intros M s.
  - exists s. split; [apply evals_nil; reflexivity|apply same_refl].
  - inversion M; subst. destruct (K H1 s) as [s1 [E1 S1]].
    destruct (IH H2 s1) as [s2 [E2 S2]]. exists s2. split; [|eapply same_trans; eauto].
    apply evals_cons_ok. exists [n], s1, ns. auto.
Qed.

Lemma eval_macro_free n : keeps n.
Proof.
  induction n as [a|a|a|a|ns st ew es w IH|k v st w IH] using node_ind'; intros M s.
  1-4: exists s; split; [apply eval_atom; [exact M|exact I]|apply same_refl].
  - apply macro_free_list in M. destruct ns as [|h t].
    + exists s. split; [|apply same_refl]. rewrite eval_unfold. apply settles_const. discriminate.
    + assert (P : forall s, exists s',
        settles (fun f => bind (exs (ex f) (h :: t) s)
                   (fun '(ns, s1) => Ok ([Lst ns st ew es w], s1))) (Ok ([Lst (h :: t) st ew es w], s'))
        /\ same_but_vec s s').
      { intros s0. destruct (evals_keep _ IH M s0) as [s1 [E1 S1]]. exists s1. split; [|exact S1].
        apply settles_then; [apply growing_exs|]. exists (Ok (h :: t, s1)).
        split; [exact E1|]. split; [reflexivity|discriminate]. }
      destruct (symbol h) as [a|] eqn:Hs.
      * destruct h; try discriminate. cbn in Hs. inversion Hs; subst.
        assert (A : starts_with (b "%") (a_val a) = false).
        { inversion M; subst. inversion H1; subst. assumption. }
        destruct (P (snd (register (Lst (Sym a :: t) st ew es w) s))) as [s1 [E1 S1]].
        exists s1. split; [|exact S1]. rewrite eval_unfold. cbn [expand_one symbol].
        unfold register. cbn [symbol]. rewrite A. exact E1.
      * destruct (P s) as [s1 [E1 S1]]. exists s1. split; [|exact S1].
        rewrite eval_unfold. cbn [expand_one]. rewrite Hs. exact E1.
  - destruct (IH M s) as [s1 [E1 S1]]. exists s1. split; [|exact S1].
    rewrite eval_unfold. cbn [expand_one]. apply settles_then; [apply growing_run|].
    exists (Ok ([v], s1)). split; [exact E1|]. split; [reflexivity|discriminate].
Qed.

Lemma evals_macro_free ns : Forall macro_free ns -> forall s, exists s',
  evals E ns s (Ok (ns, s')) /\ same_but_vec s s'.
Proof.
  intros M. apply evals_keep; [|exact M]. apply Forall_forall. intros n _. apply eval_macro_free.
Qed.

(** ** Variables *)


Lemma eval_percent name st w s body r :
  get name (x_defs s) = Some (variable body) ->
  eval E (Sym (Atom (b "%" ++ name) st w)) s r <->
  exists q, evals E body s q /\ r = bind q (fun '(ns, s1) => Ok (set_first_ws w ns, s1)).
Proof.
  intros G. rewrite eval_unfold. cbn [expand_one a_val a_ws]. rewrite percent.
  change (skipn 1 (b "%" ++ name)) with name. rewrite G. cbn [variable m_params m_body].
  rewrite settles_then by apply growing_exs. split.
  - intros [q [S1 [-> _]]]. exists q. auto.
  - intros [q [S1 ->]]. exists q. split; [exact S1|split; [reflexivity|]]. destruct S1 as [N _].
    destruct q as [[ns s1]| | | |]; cbn; congruence.
Qed.

Lemma eval_undefined name st w s :
  get name (x_defs s) = None ->
  eval E (Sym (Atom (b "%" ++ name) st w)) s (Err (EErr EUndefined st)).
Proof.
  intros G. rewrite eval_unfold. cbn [expand_one a_val a_ws a_site]. rewrite percent.
  change (skipn 1 (b "%" ++ name)) with name. rewrite G. apply settles_const. discriminate.
Qed.

Lemma eval_function name st w s m :
  get name (x_defs s) = Some m -> m_params m <> [] ->
  eval E (Sym (Atom (b "%" ++ name) st w)) s (Err (EErr EUndefined st)).
Proof.
  intros G N. rewrite eval_unfold. cbn [expand_one a_val a_ws a_site]. rewrite percent.
  change (skipn 1 (b "%" ++ name)) with name. rewrite G.
  destruct (m_params m); [congruence|]. apply settles_const. discriminate.
Qed.

(** ** Attributes *)

Lemma eval_attr k v st w s r :
  eval E (Attr k v st w) s r <->
  exists q, eval E v s q /\
    r = bind q (fun '(ns, s1) => match ns with
                                 | [] => Panic PIndex
                                 | x :: ns' => Ok (Attr k x st w :: ns', s1)
                                 end).
Proof.
  rewrite eval_unfold. cbn [expand_one]. rewrite settles_then by apply growing_run. split.
  - intros [q [S1 [-> _]]]. exists q. auto.
  - intros [q [S1 ->]]. exists q. split; [exact S1|split; [reflexivity|]]. destruct S1 as [N _].
    destruct q as [[[|n ns] s1]| | | |]; cbn; congruence.
Qed.
End WithEnv.
