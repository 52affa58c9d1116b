(** * Property C79: how deep the recursion goes

    [depth], [nested]: Spec_depth.v.  The budget counts nested calls of
    [expand_node]. *)

From Coq Require Import String List Ascii Bool Arith Lia.
From Verif Require Import Text Utf8 Res Ast Parser Env Scope State Format Expander Spec_grammar Spec_expand Spec_depth
  Proofs_eval Proofs_depth Conformance Runs.
Import ListNotations.

(** Nodes without macros need exactly as many nested calls as they are deep:
    no fewer, and no more. *)
Theorem c79_nodes : forall E f ns s, Forall macro_free ns ->
  (depths ns <= f -> exists s', expand_nodes E f ns s = Ok (ns, s') /\ x_defs s' = x_defs s /\ x_world s' = x_world s) /\
  (f < depths ns -> expand_nodes E f ns s = OutOfFuel).
Proof. exact (fun E f ns s M => exact_nodes E ns M f s). Qed.
Print Assumptions c79_nodes.

(** The value of a variable is expanded again at every use: that takes one
    call more than the value is deep. *)
Theorem c79_variable : forall E name st w s ns f, get name (x_defs s) = Some (variable ns) -> Forall macro_free ns ->
  (depths ns < f -> exists s', expand_node E f (Sym (Atom (b "%" ++ name) st w)) s = Ok (set_first_ws w ns, s') /\
     x_defs s' = x_defs s /\ x_world s' = x_world s) /\
  (f <= depths ns -> expand_node E f (Sym (Atom (b "%" ++ name) st w)) s = OutOfFuel).
Proof. exact variable_depth. Qed.
Print Assumptions c79_variable.

(** No budget is enough for all sources: [2 n] brackets need [n]. *)
Theorem c79_source : forall E path n, 0 < n ->
  utf8 (nested n) /\ length (nested n) = 2 * n /\
  (exists ns s, expand E n path (nested n) = Ok (ns, s)) /\
  forall f, f < n -> expand E f path (nested n) = OutOfFuel.
Proof.
  intros E path [|n] L; [lia|]. split; [apply (nested_parse (fun _ => None))|].
  split; [unfold nested; rewrite app_length, !repeat_length; lia|].
  split; [apply nested_run; lia|]. intros f F. apply nested_run. lia.
Qed.
Print Assumptions c79_source.

(** So the claim that some depth of recursion is enough for every source that
    is expanded without error is false. *)
Theorem c79_bounded_refuted : forall f, exists text g ns s, utf8 text /\
  expand env1 g [] text = Ok (ns, s) /\ expand env1 f [] text = OutOfFuel.
Proof.
  intros f. destruct (c79_source env1 [] (S f) ltac:(lia)) as [U [_ [[ns [s R]] N]]].
  exists (nested (S f)), (S f), ns, s. split; [exact U|]. split; [exact R|apply N; lia].
Qed.
Print Assumptions c79_bounded_refuted.

Definition c79_tree : list node := Eval vm_compute in match parse unescape0 0 (b "(p :k (b (i x)) ""s"") y") with Ok t => t | _ => [] end.
Example c79_example : Forall macro_free c79_tree /\ depths c79_tree = 5 /\
  expand_nodes env1 4 c79_tree (initial [] []) = OutOfFuel /\
  (exists s, expand_nodes env1 5 c79_tree (initial [] []) = Ok (c79_tree, s)) /\
  nested 3 = b "((()))".
Proof.
  split; [repeat constructor|]. split; [reflexivity|]. split; [vm_compute; reflexivity|]. split; [eexists; vm_compute; reflexivity|reflexivity].
Qed.
Example c79_variable_example :
  expand env1 3 [] (b "(%define x (p (b y)))%x") = OutOfFuel /\
  exists ns s, expand env1 5 [] (b "(%define x (p (b y)))%x") = Ok (ns, s).
Proof. split; [vm_compute; reflexivity|do 2 eexists; vm_compute; reflexivity]. Qed.
