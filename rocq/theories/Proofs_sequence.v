(** * Proofs about sequences of nodes *)

From Coq Require Import String List Ascii Bool Arith.
From Verif Require Import Text Res Ast Env Scope State Expander Spec_expand Spec_sequence Proofs_run Proofs_eval.
Import ListNotations.

Lemma after_nil q : after [] q = q.
Proof. destruct q as [[ys s]| | | |]; reflexivity. Qed.

Lemma after_after xs ys q : after xs (after ys q) = after (xs ++ ys) q.
Proof. destruct q as [[zs s]| | | |]; cbn; try reflexivity. rewrite app_assoc. reflexivity. Qed.

Lemma after_bind xs q : bind q (fun '(ys, s2) => Ok (xs ++ ys, s2)) = after xs q.
Proof. destruct q as [[ys s]| | | |]; reflexivity. Qed.

Lemma after_fails xs q : fails q q -> after xs q = q.
Proof. destruct q as [[ys s]| | | |]; cbn; intros H; try contradiction; reflexivity. Qed.

Lemma fails_same {A} (q r : res A) : fails q r -> r = q /\ fails q q.
Proof. destruct q; cbn; intros H; try contradiction; subst; auto. Qed.

Lemma evals_app E ns ms : forall s r,
  evals E (ns ++ ms) s r <->
  (exists xs s1 q, evals E ns s (Ok (xs, s1)) /\ evals E ms s1 q /\ r = after xs q) \/
  (evals E ns s r /\ fails r r).
Proof.
  induction ns as [|n ns IH]; intros s r; cbn [app].
  - split.
    + intros H. left. exists [], s, r. rewrite after_nil. split; [apply evals_nil; reflexivity|auto].
    + intros [[xs [s1 [q [H1 [H2 ->]]]]] | [H F]].
      * apply evals_nil in H1. inversion H1; subst. rewrite after_nil. exact H2.
      * apply evals_nil in H. subst. destruct F.
  - rewrite evals_cons. split.
    + intros [[xs [s1 [q [H1 [H2 ->]]]]] | [q [H F]]].
      * rewrite after_bind. apply IH in H2 as [[us [s3 [q' [H2 [H3 ->]]]]] | [H2 F]].
        -- left. exists (xs ++ us), s3, q'. rewrite after_after. split; [|auto].
           apply evals_cons_ok. exists xs, s1, us. auto.
        -- right. rewrite (after_fails xs q F). split; [|exact F].
           apply evals_cons. left. exists xs, s1, q. rewrite after_bind, (after_fails xs q F). auto.
      * right. apply fails_same in F as [-> F]. split; [|exact F].
        apply evals_cons. right. exists q. auto.
    + intros [[xs [s1 [q [H1 [H2 ->]]]]] | [H F]].
      * apply evals_cons_ok in H1 as [us [s3 [vs [H1 [H3 ->]]]]].
        left. exists us, s3, (after vs q). rewrite after_bind, after_after. split; [exact H1|].
        split; [|reflexivity]. apply IH. left. exists vs, s1, q. auto.
      * apply evals_cons in H as [[xs [s1 [q [H1 [H2 ->]]]]] | [q [H G]]].
        -- left. exists xs, s1, q. split; [exact H1|]. split; [|reflexivity].
           rewrite after_bind in F. apply IH. right. split; [exact H2|].
           destruct q as [[ys s2]| | | |]; cbn in F |- *; auto.
        -- right. exists q. auto.
Qed.

Lemma first_failure E ns ms s r : evals E ns s r -> fails r r -> evals E (ns ++ ms) s r.
Proof. intros H F. apply evals_app. right. auto. Qed.

Lemma never_ends E ns ms s : (forall r, ~ evals E ns s r) -> forall r, ~ evals E (ns ++ ms) s r.
Proof.
  intros N r H. apply evals_app in H as [[xs [s1 [q [H _]]]] | [H _]]; exact (N _ H).
Qed.

Lemma initial_part E ns ms s zs s2 : evals E (ns ++ ms) s (Ok (zs, s2)) ->
  exists xs ys s1, zs = xs ++ ys /\ evals E ns s (Ok (xs, s1)) /\ evals E ms s1 (Ok (ys, s2)).
Proof.
  intros H. apply evals_app_ok in H as [xs [s1 [ys [H1 [H2 ->]]]]]. exists xs, ys, s1. auto.
Qed.

(** Equivalent parts may replace each other. *)
Lemma replace E as_ bs ns ms :
  (forall s r, evals E as_ s r <-> evals E bs s r) ->
  forall s r, evals E (ns ++ as_ ++ ms) s r <-> evals E (ns ++ bs ++ ms) s r.
Proof.
  intros Q.
  assert (M : forall s r, evals E (as_ ++ ms) s r <-> evals E (bs ++ ms) s r).
  { intros s r. rewrite !evals_app. split; (intros [[xs [s1 [q [H1 H2]]]] | [H F]];
      [left; exists xs, s1, q; split; [apply Q; exact H1|exact H2] | right; split; [apply Q; exact H|exact F]]). }
  intros s r. rewrite !(evals_app E ns).
  split; (intros [[xs [s1 [q [H1 [H2 H3]]]]] | H];
      [left; exists xs, s1, q; split; [exact H1|split; [apply M; exact H2|exact H3]] | right; exact H]).
Qed.

Lemma dead_end E ps dead : (forall s, exists r, evals E ps s r /\ fails r r) ->
  forall s r, evals E (ps ++ dead) s r <-> evals E ps s r.
Proof.
  intros A s r. destruct (A s) as [q [Q F]]. pose proof (first_failure E ps dead s q Q F) as Q'.
  split; intros H.
  - rewrite (evals_fun E _ _ _ _ H Q'). exact Q.
  - rewrite (evals_fun E _ _ _ _ H Q). exact Q'.
Qed.

Lemma unreachable E ps dead dead' ns ms : (forall s, exists r, evals E ps s r /\ fails r r) ->
  forall s r, evals E (ns ++ (ps ++ dead) ++ ms) s r <-> evals E (ns ++ (ps ++ dead') ++ ms) s r.
Proof.
  intros A. apply replace. intros s r. rewrite !dead_end by exact A. reflexivity.
Qed.
