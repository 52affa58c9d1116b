(** * Proofs about the expansion of sources put one after the other *)

From Coq Require Import String List Ascii Bool Arith Lia.
From Verif Require Import Text Utf8 Res Ast Parser Env Scope State Spec_grammar Spec_keep Spec_moved Spec_joined
  Proofs_ast Proofs_moved Proofs_moved_out Proofs_reworded Proofs_joined Properties_macros.
From Verif Require Import Args Expander.
Import ListNotations.

Lemma nodes_app E f ns ms : forall s, expand_nodes E f (ns ++ ms) s =
  bind (expand_nodes E f ns s) (fun '(xs, s1) => bind (expand_nodes E f ms s1) (fun '(ys, s2) => Ok (xs ++ ys, s2))).
Proof.
  unfold expand_nodes. induction ns as [|n ns IH]; intros s; cbn [app exs bind].
  - destruct (exs (expand_node E f) ms s) as [[ys s2]| | | |]; reflexivity.
  - destruct (expand_node E f n s) as [[xs s1]| | | |]; cbn [bind]; try reflexivity. rewrite IH.
    destruct (exs (expand_node E f) ns s1) as [[us s3]| | | |]; cbn [bind]; try reflexivity.
    destruct (exs (expand_node E f) ms s3) as [[vs s4]| | | |]; cbn [bind]; try reflexivity.
    rewrite app_assoc. reflexivity.
Qed.

Lemma moved_same st st' : moved eq st st' -> st' = st.
Proof. unfold moved. destruct (s_src st =? 0); [intros [_ H]|]; congruence. Qed.
Lemma same_moved st : moved eq st st.
Proof. unfold moved. destruct (s_src st =? 0) eqn:E; [|reflexivity]. apply Nat.eqb_eq in E. auto. Qed.
Lemma atom_same a a' : alike_atom eq a a' -> a' = a.
Proof. destruct a, a'. unfold alike_atom. cbn. intros (-> & -> & M). apply moved_same in M. subst. reflexivity. Qed.
Lemma same_atom a : alike_atom eq a a.
Proof. split; [reflexivity|]. split; [reflexivity|apply same_moved]. Qed.

Lemma same_alike n : alike eq n n.
Proof.
  induction n as [a|a|a|a|ns st ew es w F|k v st w IH] using node_ind'; constructor; try apply same_atom; try apply same_moved; auto.
  induction F; constructor; auto.
Qed.
Lemma alike_same n : forall n', alike eq n n' -> n' = n.
Proof.
  induction n as [a|a|a|a|ns st ew es w F|k v st w IH] using node_ind'; intros n' A; inversion A; subst; f_equal; auto using atom_same, moved_same.
  clear A. match goal with H : Forall2 _ ns ?l |- _ => revert l H end.
  induction F as [|x l E F IHl]; intros l' H; inversion H; subst; f_equal; auto.
Qed.
Lemma all_same ns : Forall2 (alike eq) ns ns.
Proof. induction ns; constructor; auto using same_alike. Qed.
Lemma all_alike_same ns ns' : Forall2 (alike eq) ns ns' -> ns' = ns.
Proof. induction 1; f_equal; auto using alike_same. Qed.

Section Run.
Variable E : env.
Hypothesis O : permuting E.
Hypothesis T : reads_text E.
Variable f : nat.
Variables path a z : bytes.
Hypothesis Ua : utf8 a.
Hypothesis Uz : utf8 z.
Hypothesis F : forall tree, parse (e_unescape E) 0 a = Ok tree -> lambda_free E f tree (initial path a).

Lemma joined_tree ns : parse (e_unescape E) 0 a = Ok ns -> (exists ms, parse (e_unescape E) 0 z = Ok ms) ->
  exists ms', expand E f path (a ++ LF :: z) = expand_nodes E f (ns ++ ms') (initial path (a ++ LF :: z)) /\
  alike_outcome eq (expand E f path a) (expand_nodes E f ns (initial path (a ++ LF :: z))).
Proof.
  intros A [ms Z]. destruct (parse_joined _ _ _ _ Ua A) as [l [_ J]]. specialize (J z Uz). rewrite Z in J.
  destruct J as [w J]. eexists. unfold expand at 1. rewrite J. split; [reflexivity|].
  unfold expand. rewrite A. cbn [bind]. apply expansion_alike; auto using initial_alike, all_same.
Qed.

Lemma error_stays k st : (exists ns, parse (e_unescape E) 0 a = Ok ns) -> (exists ms, parse (e_unescape E) 0 z = Ok ms) ->
  expand E f path a = Err (EErr k st) -> expand E f path (a ++ LF :: z) = Err (EErr k st).
Proof.
  intros [ns A] Z X. destruct (joined_tree ns A Z) as [ms' [-> Q]]. rewrite X in Q. rewrite nodes_app.
  inversion Q as [|k0 st0 st' M E1 E2| | |]; subst. apply moved_same in M. subst. reflexivity.
Qed.

Lemma output_stays xs s zs s2 : expand E f path a = Ok (xs, s) -> (exists ms, parse (e_unescape E) 0 z = Ok ms) ->
  expand E f path (a ++ LF :: z) = Ok (zs, s2) -> exists ys, zs = xs ++ ys.
Proof.
  intros X Z W.
  assert (N : exists ns, parse (e_unescape E) 0 a = Ok ns).
  { unfold expand in X. destruct (parse (e_unescape E) 0 a) as [ns| | | |]; try discriminate X. eauto. }
  destruct N as [ns A]. unfold expand in X; rewrite A in X.
  destruct (joined_tree ns A Z) as [ms' [Y Q]]. rewrite Y, nodes_app in W. unfold expand in Q. rewrite A in Q.
  cbn [bind] in X, Q. rewrite X in Q. inversion Q as [u u' t t' H _ _ E1 E2| | | |]; subst.
  rewrite <- E2 in W. cbn [bind] in W. apply all_alike_same in H. subst u'.
  destruct (expand_nodes E f ms' t') as [[ys s3]| | | |]; cbn [bind] in W; try discriminate W.
  injection W as <- _. exists ys. reflexivity.
Qed.
End Run.
