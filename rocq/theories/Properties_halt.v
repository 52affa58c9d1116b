(** * Property C63: programs without recursion come to an end *)

From Coq Require Import String List Ascii Bool Arith Lia.
From Verif Require Import Text Res Ast Env Scope State Args Bind Parser Expander
  Spec_args Spec_expand Spec_builtin Spec_loop Spec_halt
  Proofs_run Proofs_eval Proofs_halt Conformance Runs Properties_loop.
Import ListNotations.

(** Expansion ends, with macro-free nodes, an error or a panic. *)
Theorem c63_program : forall E level r path text tree,
  plain_dates E -> layered_files level E ->
  parse (e_unescape E) 0 text = Ok tree -> Forall (below level r) tree ->
  halts (fun f => expand E f path text) (fun '(ns, _) => Forall macro_free ns).
Proof. intros E level r path text tree D F P H. exact (ends_halts _ _ (program_ends E D level F r path text tree P H)). Qed.
Print Assumptions c63_program.

(** So does the expansion of each node, in any state where the definitions
    in force are not recursive; and then they are not recursive afterwards. *)
Theorem c63_node : forall E level r n s,
  plain_dates E -> layered_files level E -> layered level s -> below level r n ->
  halts (fun f => expand_node E f n s)
    (fun '(ns, s') => Forall macro_free ns /\ layered level s').
Proof.
  intros E level r n s D F L H. apply ends_halts. eapply ends_impl; [exact (below_runs E D level F r n H s L)|].
  intros [ns s'] G. exact G.
Qed.
Print Assumptions c63_node.

(** A program that never ends is recursive, however levels are assigned. *)
Theorem c63_divergence : forall E level r path text tree,
  plain_dates E -> layered_files level E -> program_diverges E path text ->
  parse (e_unescape E) 0 text = Ok tree -> ~ Forall (below level r) tree.
Proof.
  intros E level r path text tree D F V P H.
  destruct (c63_program E level r path text tree D F P H) as [q [[N [f S]] _]].
  apply N. rewrite <- (S f (le_n f)). apply V.
Qed.
Print Assumptions c63_divergence.

(** ** Examples *)

Ltac call := do 5 eexists; split; [reflexivity|vm_compute; reflexivity].
Ltac member := vm_compute; repeat (first [left; reflexivity|right]); fail.
Ltac free := vm_compute; repeat constructor.
Ltac number := vm_compute; repeat constructor.
Ltac named := first
  [ left; member | right; split; [vm_compute; reflexivity|number] ].
Ltac layer :=
  lazymatch goal with
  | |- Forall _ [] => constructor
  | |- Forall _ (_ :: _) => constructor; [layer|layer]
  | |- below _ _ _ => first
      [ apply below_plain; solve [free]
      | eapply below_variable; [vm_compute; reflexivity|solve [number]]
      | eapply below_keyword; layer
      | eapply below_simple; [solve [call]|solve [member]|layer]
      | eapply below_value; [solve [call]|layer]
      | eapply below_define; [solve [call]|solve [repeat constructor; free]|layer]
      | eapply below_lambda; [solve [call]|reflexivity|solve [free]|solve [intros; vm_compute; reflexivity]|layer]
      | eapply below_applied; [solve [call]|solve [member]| |layer];
          first [left; eexists; split; [reflexivity|]; split; [vm_compute; reflexivity|named]
                |right; eexists; split; [call|intros; number]]
      | eapply below_for; [solve [call]|repeat constructor|solve [free]|intros ? Q; vm_compute in Q; inversion Q; layer|layer]
      | eapply below_match; [solve [call]|layer|];
          intros cl ns I Q; repeat (destruct I as [I|I]; [subst cl; vm_compute in Q; inversion Q; layer|]); contradiction
      | eapply below_ifdef; [solve [call]|layer]
      | eapply below_namespace; [solve [call]|intros; number|layer]
      | eapply below_include; [solve [call]|solve [number]|layer]
      | eapply below_sort; [solve [call]|repeat constructor]
      | eapply below_macro; [solve [call]|vm_compute; reflexivity|solve [number]|layer]
      | eapply below_list; [intros ? ? [? [? [? [? [? [Q A]]]]]]; inversion Q; subst; vm_compute in A; discriminate A|layer]
      ]
  end.

Definition no_dates (files : list (bytes * bytes)) : plain_dates (env0 files).
Proof. intros text l H. discriminate H. Qed.

(** Macros that use each other, applied in several ways. *)
Definition c63_level (name : bytes) : nat :=
  if starts_with (b "__lambda") name then 1
  else if beq name (b "em") then 1
  else if beq name (b "item") then 2
  else if beq name (b "include") then 3
  else if beq name (b "page") then 4
  else 0.
Definition c63_source := b "
(%define (em x) (i %x))
(%define (item x) (li (%em %x)))
(%define (page title) (html (h1 %title) (%include part) (%ifdef draft (%item draft) (%em final))))
(%page (%concat a b))
(%map item a b)
(%apply (%lambda (x y) %y) c d)
(%for x in ((%em a) b) (%item %x))
(%match (a b) ((x y) (%em %x)) (else %else))
".
Definition c63_part := b "(ul (%item one) (%item two))".
Definition c63_env : env := env0 [(b "./part", c63_part)].
Lemma part_files : layered_files c63_level c63_env.
Proof.
  intros p text id H. unfold c63_env, env0, env0_with in H. cbn [e_read find] in H.
  destruct (beq p (b "./part")); [|discriminate H]. inversion H; subst text. clear H.
  remember (parse (e_unescape c63_env) id c63_part) as r eqn:R. vm_compute in R. subst r.
  change (c63_level (b "include")) with 3. layer.
Qed.
Example c63_example : halts (fun f => expand c63_env f [] c63_source) (fun '(ns, _) => Forall macro_free ns).
Proof.
  remember (parse (e_unescape c63_env) 0 c63_source) as r eqn:R. vm_compute in R.
  destruct r as [tree| | | |]; try discriminate R. inversion R as [Q]. clear R.
  apply (c63_program c63_env c63_level 5 [] c63_source tree (no_dates _) part_files).
  - rewrite Q. vm_compute. reflexivity.
  - subst tree. layer.
Qed.

(** Definitions in a namespace, all of level 0. *)
Definition c63_space := b "(%namespace m (%define (f x) (p y))) (%m/f (%sort :key do (c a)))".
Example c63_namespace : halts (fun f => expand (env0 []) f [] c63_space) (fun '(ns, _) => Forall macro_free ns).
Proof.
  remember (parse (e_unescape (env0 [])) 0 c63_space) as r eqn:R. vm_compute in R.
  destruct r as [tree| | | |]; try discriminate R. inversion R as [Q]. clear R.
  apply (c63_program (env0 []) (fun _ => 0) 1 [] c63_space tree (no_dates _)).
  - intros p text id H. discriminate H.
  - rewrite Q. vm_compute. reflexivity.
  - subst tree. constructor; [layer|]. constructor; [|constructor].
    eapply below_macro; [call|vm_compute; reflexivity|number|]. constructor; [|constructor].
    eapply below_sort; [call|]. constructor; [|constructor; [|constructor]].
    + right. split; [free|]. intros a st w K. inversion K; subst. left. member.
    + left. split; [eexists; reflexivity|]. split; [|layer].
      intros ? ? [? [? [? [? [? [K A]]]]]]. inversion K; subst. discriminate A.
Qed.

(** A recursive macro is below no level, and neither is a definition by
    [%symbol] in terms of itself: that is why [%symbol] is left out. *)
Example c63_recursive : ~ exists level r, layered_files level env1 /\
  exists tree, parse (e_unescape env1) 0 c37_recursion = Ok tree /\ Forall (below level r) tree.
Proof.
  intros [level [r [F [tree [P H]]]]]. revert H.
  apply (c63_divergence env1 level r [] c37_recursion tree (no_dates _) F); [|exact P].
  exact c37_macro_example.
Qed.
Example c63_symbol : ~ exists level r, layered_files level env1 /\
  exists tree, parse (e_unescape env1) 0 c37_value = Ok tree /\ Forall (below level r) tree.
Proof.
  intros [level [r [F [tree [P H]]]]]. revert H.
  apply (c63_divergence env1 level r [] c37_value tree (no_dates _) F); [|exact P].
  exact c37_variable_example.
Qed.
