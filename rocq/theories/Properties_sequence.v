(** * Property C80: a sequence of nodes is expanded part by part

    [after]: Spec_sequence.v; [evals], [fails]: Spec_expand.v ([fails r r]
    says that [r] is an error, a panic or a hang). *)

From Coq Require Import String List Ascii Bool Arith.
From Verif Require Import Text Res Ast Parser Env Scope State Format Expander Spec_expand Spec_loop Spec_sequence
  Proofs_eval Proofs_sequence Conformance Runs Properties_loop.
Import ListNotations.

(** However a sequence is divided, its outcome is that of the second part in
    the state that the first part leaves behind, with the nodes of the first
    part put in front; or the first part fails, and then so does the whole. *)
Theorem c80_sequence : forall E ns ms s r,
  evals E (ns ++ ms) s r <->
  (exists xs s1 q, evals E ns s (Ok (xs, s1)) /\ evals E ms s1 q /\ r = after xs q) \/
  (evals E ns s r /\ fails r r).
Proof. exact evals_app. Qed.
Print Assumptions c80_sequence.

(** Nothing that follows changes the failure of a first part: the error that
    is reported is the first. *)
Theorem c80_first_failure : forall E ns ms s r,
  evals E ns s r -> fails r r -> evals E (ns ++ ms) s r.
Proof. exact first_failure. Qed.
Print Assumptions c80_first_failure.

(** Nor does it end the expansion of a first part that does not end. *)
Theorem c80_never_ends : forall E ns ms s,
  (forall r, ~ evals E ns s r) -> forall r, ~ evals E (ns ++ ms) s r.
Proof. exact never_ends. Qed.
Print Assumptions c80_never_ends.

(** The expansion of a first part is an initial part of the expansion. *)
Theorem c80_initial_part : forall E ns ms s zs s2, evals E (ns ++ ms) s (Ok (zs, s2)) ->
  exists xs ys s1, zs = xs ++ ys /\ evals E ns s (Ok (xs, s1)) /\ evals E ms s1 (Ok (ys, s2)).
Proof. exact initial_part. Qed.
Print Assumptions c80_initial_part.

(** Parts with the same outcomes in all states may replace each other in every
    sequence. *)
Theorem c80_replace : forall E as_ bs ns ms,
  (forall s r, evals E as_ s r <-> evals E bs s r) ->
  forall s r, evals E (ns ++ as_ ++ ms) s r <-> evals E (ns ++ bs ++ ms) s r.
Proof. exact replace. Qed.
Print Assumptions c80_replace.

(** What follows a part that always fails is never reached: it may be left out
    or exchanged, wherever the part stands. *)
Theorem c80_unreachable : forall E ps dead dead' ns ms, (forall s, exists r, evals E ps s r /\ fails r r) ->
  forall s r, evals E (ns ++ (ps ++ dead) ++ ms) s r <-> evals E (ns ++ (ps ++ dead') ++ ms) s r.
Proof. exact unreachable. Qed.
Print Assumptions c80_unreachable.

Definition c80_first : list node := Eval vm_compute in
  match parse unescape0 0 (b "(%define x 1) (p %x)") with Ok t => t | _ => [] end.
Definition c80_second : list node := Eval vm_compute in
  match parse unescape0 0 (b "(%define y %x) (q %y %x)") with Ok t => t | _ => [] end.
Definition c80_wrong : list node := Eval vm_compute in
  match parse unescape0 0 (b "(%nothing)") with Ok t => t | _ => [] end.

Definition shown (r : res (list node * state)) : option bytes :=
  match r with Ok (ns, _) => Some (display ns) | _ => None end.

Example c80_example :
  shown (expand_nodes env1 30 (c80_first ++ c80_second) (initial [] [])) = Some (b " (p 1) (q 1 1)") /\
  shown (expand_nodes env1 30 c80_first (initial [] [])) = Some (b " (p 1)") /\
  shown (expand_nodes env1 30 c80_second (initial [] [])) = None.
Proof. repeat split; vm_compute; reflexivity. Qed.
Example c80_failure_example : forall ms, exists e, evals env1 (c80_wrong ++ ms) (initial [] []) (Err e).
Proof.
  intros ms. destruct (expand_nodes env1 30 c80_wrong (initial [] [])) as [x|e| | |] eqn:R;
    try (vm_compute in R; discriminate R).
  exists e. apply c80_first_failure; [|reflexivity]. rewrite <- R. apply evals_at. rewrite R. discriminate.
Qed.

Definition c80_stop : list node := Eval vm_compute in
  match parse unescape0 0 (b "(%define)") with Ok t => t | _ => [] end.
Example c80_unreachable_example : forall s r,
  evals env1 (c80_first ++ (c80_stop ++ c80_wrong) ++ []) s r <-> evals env1 (c80_first ++ (c80_stop ++ c80_second) ++ []) s r.
Proof.
  apply c80_unreachable. intros s.
  destruct (expand_nodes env1 3 c80_stop s) as [x|e| | |] eqn:R; try (vm_compute in R; discriminate R).
  exists (Err e). split; [|reflexivity]. rewrite <- R. apply evals_at. rewrite R. discriminate.
Qed.

(** A value that is its own use never ends, whatever comes after it. *)
Example c80_never_example : forall ms r, ~ evals env1 ([c37_at env1 c37_value 1] ++ ms) (c37_state env1 c37_value 1) r.
Proof.
  intros ms. apply c80_never_ends. intros r [N [f F]]. specialize (F f (le_n f)).
  assert (D : diverges env1 (c37_at env1 c37_value 1) (c37_state env1 c37_value 1)).
  { assert (G := c37_get env1 c37_value (b "x") ltac:(vm_compute; reflexivity)).
    remember (c37_macro_of env1 c37_value (b "x")) as m eqn:M. vm_compute in M.
    apply (c37_variable env1 m (b "x")); [| | |exact G]; subst m; clear G.
    - reflexivity.
    - eexists [], _, []. split; [reflexivity|]. split; [constructor|]. eexists. split; reflexivity.
    - remember (c37_at env1 c37_value 1) as n eqn:Q. vm_compute in Q. subst n. eexists. split; reflexivity. }
  revert D N F. generalize (c37_at env1 c37_value 1) (c37_state env1 c37_value 1). intros n s D N F.
  apply N. rewrite <- F. specialize (D f). cbn. rewrite D. reflexivity.
Qed.
