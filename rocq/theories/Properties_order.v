(** * Properties C36 and C32: hash-map order, and [%apply] as a call *)

From Coq Require Import String List Ascii Bool Arith Permutation.
From Verif Require Import Text Res Ast Env Scope State Args Bind Parser Expander
  Spec_args Spec_expand Spec_builtin Spec_bind Spec_scope Spec_order
  Proofs_run Proofs_eval Proofs_order Conformance Runs Properties_macros.
Import ListNotations.

(** ** C36: order of hash maps *)

(** Binding: success, resulting state and kind of error are the same under
    every order, unless a &&-parameter receives several keyword arguments. *)
Theorem c36_binding : forall E o, permuting E -> permuting (with_order o E) -> forall st ps vs s,
  undisputed ps vs ->
  match bind_list E st ps vs s with
  | Ok s1 => bind_list (with_order o E) st ps vs s = Ok s1
  | Err (EErr k _) => exists st', bind_list (with_order o E) st ps vs s = Err (EErr k st')
  | _ => False
  end.
Proof. intros E o P P' st ps vs s. exact (bind_order_free E o P P' st ps vs s). Qed.
Print Assumptions c36_binding.

(** If one does, then reversing the order changes its value. *)
Theorem c36_disputed : forall E, permuting E -> forall st ps vs s s1 name,
  bind_list E st ps vs s = Ok s1 -> kwrest_names ps = [name] -> 2 <= length (surplus_keywords ps vs) ->
  exists s2, bind_list (with_order (fun seed l => rev (e_order E seed l)) E) st ps vs s = Ok s2 /\
    get name (x_defs s1) <> get name (x_defs s2).
Proof. intros E P st ps vs s s1 name. exact (disputed_differs E st ps vs s s1 name P). Qed.
Print Assumptions c36_disputed.

(** The state counts the bindings in which that happened... *)
Theorem c36_counted : forall E, permuting E -> forall st ps vs s s1,
  bind_list E st ps vs s = Ok s1 ->
  g_ordered (x_world s) <= g_ordered (x_world s1) /\
  (g_ordered (x_world s1) = g_ordered (x_world s) <-> undisputed ps vs).
Proof. intros E P. exact (bind_counts E P). Qed.
Print Assumptions c36_counted.

(** ...and a program in which it never did has the same output, definitions
    and log under every order. *)
Theorem c36_program : forall E o, permuting E -> permuting (with_order o E) -> forall f path text ns s,
  expand E f path text = Ok (ns, s) -> g_ordered (x_world s) = 0 ->
  exists s', expand (with_order o E) f path text = Ok (ns, s') /\ same_contents s s' /\
    g_ordered (x_world s') = 0.
Proof. intros E o P P' f path text ns s. exact (program_order_free E o f path text ns s P P'). Qed.
Print Assumptions c36_program.

Definition reversed : env := with_order (fun _ l => rev l) env1.
Lemma reversed_permuting : permuting reversed.
Proof. intros seed l. symmetry. apply Permutation_rev. Qed.

(** Keyword parameters, one surplus keyword, two namespaces. *)
Definition c36_source := b "(%define (f x :k 1 :l 2 &&r) (v %x %k %l %r)) (%namespace n (%define y 1) (%define z 2)) (%f a :l 3 :m 4) (%f :k 5 b) %n/z".
Example c36_example : exists ns s, expand env1 60 [] c36_source = Ok (ns, s) /\
  display ns = b " (v a 1 3 :m 4) (v b 5 2) 2" /\ g_ordered (x_world s) = 0.
Proof. apply expanded_by. vm_compute. split; reflexivity. Qed.
Definition c36_params := args_of (node_of (b "(f (a &&r) &&s)")).
Definition c36_one := args_of (node_of (b "(f (1 :k 2) :l 3)")).
Definition c36_two := args_of (node_of (b "(f (1 :k 2 :m 4) :l 3)")).
Example c36_example_undisputed : undisputed c36_params c36_one /\ ~ undisputed c36_params c36_two.
Proof.
  remember c36_params as ps eqn:PQ. vm_compute in PQ.
  split.
  - remember c36_one as vs eqn:VQ. vm_compute in VQ.
    intros qs ws M. destruct M as [ps vs|ps vs i p v ps' vs' qs ws I J O M']; [right; subst; vm_compute; repeat constructor|].
    subst ps vs. vm_compute in I, J. destruct i as [|i]; [|destruct i; discriminate J].
    apply (f_equal (fun o => match o with Some x => x | None => p end)) in I, J. subst p v.
    inversion O; subst; clear O. inversion M' as [|? ? i p v ps2 vs2 ? ? I J O M2]; subst; [right; vm_compute; repeat constructor|].
    vm_compute in I, J. destruct i as [|i]; [|destruct i; discriminate I].
    apply (f_equal (fun o => match o with Some x => x | None => p end)) in I. subst p. inversion O.
  - remember c36_two as vs eqn:VQ. vm_compute in VQ. subst ps vs. intros U. edestruct U as [H|H].
    + eapply (meets_inside _ _ 0); [vm_compute; reflexivity|vm_compute; reflexivity|apply opens_list|apply meets_here].
    + vm_compute in H. discriminate H.
    + vm_compute in H. inversion H as [|? H1]. inversion H1.
Qed.

(** The defect: the output of a program depends on the order, and so does the
    place of an error. *)
Theorem c36_output_refuted : exists src, 
  yields env1 src (b " (v :a 1 :b 2)") /\ yields reversed src (b " (v :b 2:a 1)") /\
  src = b "(%define (f &&r) (v %r)) (%f :a 1 :b 2)".
Proof. eexists. split; [|split; [|reflexivity]]; shows. Qed.
Print Assumptions c36_output_refuted.
Theorem c36_place_refuted : exists src st st',
  expand env1 60 [] src = Err (EErr EBindExcessKeyword st) /\
  expand reversed 60 [] src = Err (EErr EBindExcessKeyword st') /\ st <> st' /\
  src = b "(%define (f) x) (%f :a 1 :b 2)".
Proof.
  eexists _, _, _. split; [|split; [|split; [|reflexivity]]]; [vm_compute; reflexivity|vm_compute; reflexivity|discriminate].
Qed.
Print Assumptions c36_place_refuted.

(** ** C32: [(%apply f args)] and [(%f args)] *)

(** For a user macro and macro-free arguments, which the macro receives as
    they are, the outcomes are alike. *)
Theorem c32_apply_call : forall E, permuting E -> forall name a args args' n n' s,
  find_builtin name = None -> a_val a = name -> starts_with (b "%") name = false ->
  Forall macro_free args ->
  is_call (b "apply") (Sym a :: args) n -> is_call name args' n' -> received args' = args ->
  (forall r, eval E n s r -> exists r', eval E n' s r' /\ alike r r') /\
  (forall r', eval E n' s r' -> exists r, eval E n s r /\ alike r r').
Proof. intros E P name a args args' n n' s. exact (apply_as_call E name a args args' n n' s P). Qed.
Print Assumptions c32_apply_call.

Example c32_apply_example :
  let n := node_of (b "(%apply f(1) 2)") in
  let n' := Lst (Sym (Atom (b "%f") (node_site n) []) :: tl (args_of n)) (node_site n) [] (node_site n) [] in
  is_call (b "f") (tl (args_of n)) n' /\ received (tl (args_of n)) = tl (args_of n) /\
  yields env1 (b "(%define (f x y) (v %y %x)) (%apply f(1) 2)") (b " (v 2 (1))") /\
  yields env1 (b "(%define (f x y) (v %y %x)) (%f (1) 2)") (b " (v 2 (1))").
Proof.
  split; [do 5 eexists; split; reflexivity|]. split; [vm_compute; reflexivity|]. split; shows.
Qed.
(** An argument after a space keeps the space when given to [%apply]; the
    macro [(%x)] shows it. *)
Example c32_apply_space :
  yields env1 (b "(%define (f x) (a (%x))) (%apply f 1)") (b " (a 1)") /\
  yields env1 (b "(%define (f x) (a(%x))) (%apply f 1)") (b " (a 1)") /\
  yields env1 (b "(%define (f x) (a(%x))) (%f 1)") (b " (a1)").
Proof. runs. Qed.
