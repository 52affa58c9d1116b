(** * Proof for C10: what is fed to the hasher determines the node *)

From Coq Require Import String List Ascii Bool Arith.
From Verif Require Import Text Ast Spec_tree Proofs_ast Proofs_print.
Import ListNotations.

Lemma hash_prefix : forall x y r r', node_hash x ++ r = node_hash y ++ r' -> shape x = shape y /\ r = r'.
Proof.
  induction x as [a|a|a|a|ns st ew es w IH|k v st w IH] using node_ind'; intros [a'|a'|a'|a'|ns' st' ew' es' w'|k' v' st' w'] r r' H;
    cbn [node_hash List.app] in H; try discriminate H; cbn [shape].
  1-4: injection H as A B; now rewrite A, B.
  - injection H as L H.
    assert (X : map shape ns = map shape ns' /\ r = r'); [|destruct X as [-> ->]; auto].
    revert ns' r r' L H. induction IH as [|x ns X F IH]; intros [|y ns'] r r' L H; try discriminate L; [split; [reflexivity|exact H]|].
    rewrite <- !app_assoc in H. apply X in H as [A H]. injection L as L. apply IH in H as [B C]; [|exact L]. cbn [map]. now rewrite A, B.
  - injection H as A H. apply IH in H as [B C]. now rewrite A, B.
Qed.
Lemma hash_exact x y : node_hash x = node_hash y <-> node_eq x y = true.
Proof.
  rewrite node_eq_iff. split; [|apply node_hash_shape]. intros H. apply (f_equal (fun l => l ++ [])) in H. exact (proj1 (hash_prefix x y [] [] H)).
Qed.
Lemma hash_lists xs : forall ys, flat_map node_hash xs = flat_map node_hash ys -> map shape xs = map shape ys.
Proof.
  assert (N : forall x, node_hash x <> []) by (intros []; discriminate).
  induction xs as [|x xs IH]; intros [|y ys] H; cbn [flat_map] in H; [reflexivity|..].
  - symmetry in H. apply app_eq_nil in H as [H _]. destruct (N y H).
  - apply app_eq_nil in H as [H _]. destruct (N x H).
  - apply hash_prefix in H as [A H]. cbn [map]. now rewrite A, (IH ys H).
Qed.
