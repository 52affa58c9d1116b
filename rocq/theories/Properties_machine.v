(** * Property C78: programs can compute everything

    [machine], [stops_with], [simulator], [tower]: Spec_machine.v.  The memory
    a run takes is not modelled: the budget stands for the depth of recursion,
    so a run that needs every budget ends in the real program when the stack
    is used up. *)

From Coq Require Import String List Ascii Bool Arith Lia.
From Verif Require Import Text Utf8 Res Ast Parser Env Scope State Format Expander Spec_grammar Spec_tree Spec_machine
  Proofs_machine Conformance Runs.
Import ListNotations.

(** If the machine stops then the program, in every environment, is expanded
    to the final values of the counters. *)
Theorem c78_result : forall E M path m n x y, stops_with M (0, m, n) x y ->
  exists f ns s, expand E f path (simulator M m n) = Ok (ns, s) /\ map shape ns = [tower x; tower y].
Proof. exact simulator_result. Qed.
Print Assumptions c78_result.

(** There is no other outcome: with any budget either the budget is used up,
    or the machine stops and the expansion is its result.  In particular there
    is no error and no panic. *)
Theorem c78_outcome : forall E M path m n f,
  expand E f path (simulator M m n) = OutOfFuel \/
  exists ns s x y, expand E f path (simulator M m n) = Ok (ns, s) /\ map shape ns = [tower x; tower y] /\
    stops_with M (0, m, n) x y.
Proof. exact simulator_sound. Qed.
Print Assumptions c78_outcome.

(** So the expansion ends exactly if the machine stops. *)
Theorem c78_ends : forall E M path m n,
  (exists f, expand E f path (simulator M m n) <> OutOfFuel) <-> (exists x y, stops_with M (0, m, n) x y).
Proof.
  intros E M path m n. split.
  - intros [f H]. destruct (simulator_sound E M path m n f) as [X|[ns [s [x [y [_ [_ S]]]]]]]; [congruence|eauto].
  - intros [x [y S]]. destruct (simulator_result E M path m n x y S) as [f [ns [s [H _]]]]. exists f. congruence.
Qed.
Print Assumptions c78_ends.

(** A procedure that tells for every program whether its expansion ends would
    tell for every machine with two counters whether it stops. *)
Theorem c78_decision : forall E path (decide : bytes -> bool),
  (forall text, decide text = true <-> exists f, expand E f path text <> OutOfFuel) ->
  exists decide_machine : machine -> nat -> nat -> bool,
    forall M m n, decide_machine M m n = true <-> exists x y, stops_with M (0, m, n) x y.
Proof.
  intros E path decide D. exists (fun M m n => decide (simulator M m n)). intros M m n. rewrite D. apply c78_ends.
Qed.
Print Assumptions c78_decision.

(** Every step of the machine is a call inside the one before, though it is
    the last thing that one does: two nested calls for each step, at least. *)
Theorem c78_depth : forall E M path m n k x y f,
  stops_after M k (0, m, n) x y -> f <= 2 * k -> expand E f path (simulator M m n) = OutOfFuel.
Proof. exact simulator_deep. Qed.
Print Assumptions c78_depth.

(** (Every machine that stops does so after some number of steps.) *)
Theorem c78_steps : forall M c x y, stops_with M c x y <-> exists k, stops_after M k c x y.
Proof. intros M c x y. split; [apply stops_counted|intros [k H]; exact (after_stops M k c x y H)]. Qed.
Print Assumptions c78_steps.

(** The program is text that the parser reads. *)
Theorem c78_text : forall M m n, utf8 (simulator M m n) /\ forall un, exists tree, parse un 0 (simulator M m n) = Ok tree.
Proof.
  intros M m n. split; [apply simulator_utf8|]. intros un. destruct (simulator_parse un M m n) as [tree [P _]]. exists tree. exact P.
Qed.
Print Assumptions c78_text.

(** The machine that adds the second counter to the first: *)
Definition adder : machine := [Take Second 1 2; Add First 0].
Example c78_adder_text : simulator adder 2 1 =
  b "(%define (h a b) %a %b)" ++
  b "(%define (q a b) (%match %b (() (%h %a %b)) ((b) (%qq %a %b))))" ++
  b "(%define (qq a b) (%q (%list %a) %b))" ++
  b "(%q ((())) (()))".
Proof. reflexivity. Qed.
Example c78_adder : stops_with adder (0, 2, 3) 5 0 /\ yields env1 (simulator adder 2 3) (b " (((((()))))) ()").
Proof.
  split; [|shows].
  do 3 (eapply continued; [apply take_second with (z := 2); reflexivity|]; eapply continued; [apply add_first; reflexivity|]).
  eapply continued; [eapply zero_second; reflexivity|]. apply stopped. reflexivity.
Qed.
Example c78_adder_depth : stops_after adder 7 (0, 2, 3) 5 0 /\ expand env1 14 [] (simulator adder 2 3) = OutOfFuel.
Proof.
  split; [|vm_compute; reflexivity].
  do 3 (eapply after_step; [apply take_second with (z := 2); reflexivity|]; eapply after_step; [apply add_first; reflexivity|]).
  eapply after_step; [eapply zero_second; reflexivity|]. apply after_none. reflexivity.
Qed.
(** A machine that doubles the first counter, with three more instructions. *)
Definition doubler : machine := [Take First 1 3; Add Second 2; Add Second 0; Take Second 4 5; Add First 3].
Example c78_doubler : yields env1 (simulator doubler 2 0) (b " ((((())))) ()").
Proof. shows. Qed.

(** A machine that never stops: *)
Example c78_endless : (forall m n x y, ~ stops_with [Add First 0] (0, m, n) x y) /\
  forall E path m n f, expand E f path (simulator [Add First 0] m n) = OutOfFuel.
Proof.
  assert (N : forall c x y, stops_with [Add First 0] c x y -> fst (fst c) = 0 -> False).
  { intros c x y H. induction H as [i m n Q|c c' m n S H IH]; cbn; [intros ->; discriminate Q|].
    intros Z. apply IH. inversion S; subst; cbn in Z; subst;
      match goal with Q : nth_error _ 0 = _ |- _ => cbn in Q; injection Q; intros; subst; try discriminate end; reflexivity. }
  split; [intros m n x y H; exact (N _ _ _ H eq_refl)|].
  intros E path m n f. destruct (c78_outcome E [Add First 0] path m n f) as [H|[ns [s [x [y [_ [_ H]]]]]]]; [exact H|].
  destruct (N _ _ _ H eq_refl).
Qed.
