(** * Property C67: the macro language as a set of rules

    [means], [means_all], [runs] and [program_means] are the rules of
    Spec_lang.v.  They mention no recursion budget, no order of hash maps and
    none of the expander's bookkeeping. *)

From Coq Require Import String List Ascii Bool Arith NArith ZArith Permutation.
From Verif Require Import Text Utf8 Res Ast Env Scope State Parser
  Spec_keep Spec_place Proofs_print Proofs_place Spec_expand Spec_order Spec_loop Proofs_run Proofs_eval Proofs_order Proofs_loop Proofs_meaning
  Conformance Runs Properties_macros Properties_loop Properties_order.
From Verif Require Import Args Expander Spec_lang.
Import ListNotations.

(** ** The rules are the expander *)

(** The outcomes the rules allow are those the expander has under the
    possible orders of hash maps: for programs... *)
Theorem c67_program : forall E, reads_text E -> forall path text, utf8 text -> forall q,
  program_means E path text q <->
  exists o r, permuting (with_order o E) /\
    settles (fun f => expand (with_order o E) f path text) r /\ seen r = q.
Proof. exact program_meaning. Qed.
Print Assumptions c67_program.

(** ...nodes, sequences of nodes, and calls of macros. *)
Theorem c67_node : forall E, reads_text E -> forall n s q,
  means E n (visible s) q <->
  exists o r, permuting (with_order o E) /\ eval (with_order o E) n s r /\ seen r = q.
Proof. exact node_meaning. Qed.
Print Assumptions c67_node.

Theorem c67_nodes : forall E, reads_text E -> forall ns s q,
  means_all E ns (visible s) q <->
  exists o r, permuting (with_order o E) /\ evals (with_order o E) ns s r /\ seen r = q.
Proof. exact nodes_meaning. Qed.
Print Assumptions c67_nodes.

Theorem c67_call : forall E, reads_text E -> forall name cl ps s q,
  runs E name (c_node cl) ps (visible s) q <->
  exists o r, permuting (with_order o E) /\ invokes (with_order o E) name cl ps s r /\ seen r = q.
Proof. exact call_meaning. Qed.
Print Assumptions c67_call.

(** ** Consequences *)

(** Whatever a run of the expander ends with follows from the rules. *)
Theorem c67_sound : forall E, reads_text E -> permuting E -> forall f path text, utf8 text ->
  expand E f path text <> OutOfFuel -> program_means E path text (seen (expand E f path text)).
Proof.
  intros E T P f path text U N. apply c67_program; [exact T|exact U|]. exists (e_order E), (expand E f path text).
  rewrite with_own_order. split; [exact P|]. split; [apply expand_settles, N|reflexivity].
Qed.
Print Assumptions c67_sound.

(** A program to which the rules give no outcome runs forever, under every
    order, and only such a program does. *)
Theorem c67_silent : forall E path text, reads_text E -> utf8 text ->
  (forall q, ~ program_means E path text q) <->
  (forall o, permuting (with_order o E) -> program_diverges (with_order o E) path text).
Proof. exact program_silent. Qed.
Print Assumptions c67_silent.

(** If no macro with a &&-parameter was given several surplus keywords, then
    the rules allow one outcome, that of the expander. *)
Theorem c67_unique : forall E f path text ns s, reads_text E -> utf8 text -> permuting E ->
  expand E f path text = Ok (ns, s) -> g_ordered (x_world s) = 0 ->
  forall q, program_means E path text q <-> q = Ok (ns, visible s).
Proof. exact program_unique. Qed.
Print Assumptions c67_unique.

(** The outcomes depend on definitions, log and files only: not on what else
    the expander keeps in its state. *)
Theorem c67_visible : forall E, reads_text E -> forall ns s s' o r, visible s = visible s' ->
  permuting (with_order o E) -> evals (with_order o E) ns s r ->
  exists o' r', permuting (with_order o' E) /\ evals (with_order o' E) ns s' r' /\ seen r' = seen r.
Proof.
  intros E T ns s s' o r V P R. apply c67_nodes; [exact T|]. rewrite <- V. apply c67_nodes; [exact T|]. exists o, r. auto.
Qed.
Print Assumptions c67_visible.

(** ** Examples *)

Lemma env1_reads : reads_text env1.
Proof. intros p t H. discriminate H. Qed.

(** A derivation by the rules: a definition, and a list using it. *)
Definition c67_tree (src : bytes) : list node := match parse (e_unescape env1) 0 src with Ok t => t | _ => [] end.
Definition c67_source := b "(%define x 1) (p %x)".
Example c67_derivation : exists n c, program_means env1 [] c67_source (Ok ([n], c)) /\ display [n] = b " (p 1)".
Proof.
  assert (T : parse (e_unescape env1) 0 c67_source = Ok (c67_tree c67_source)) by (vm_compute; reflexivity).
  remember (c67_tree c67_source) as tree eqn:Q. vm_compute in Q. subst tree.
  do 2 eexists. split.
  - eapply program_tree; [apply syntax_iff; [apply is_utf8; reflexivity|exact T]|].
    refine (means_cons _ _ _ _ [] _ (Ok ([_], _)) _ _).
    { (* the definition *)
      eapply means_call; [do 5 eexists; split; [reflexivity|exact (eq_refl : _ = b "%" ++ b "define")]|].
      apply define_variable. refine (means_cons _ _ _ _ [_] _ (Ok ([], _)) _ (means_nil _ _)).
      eapply means_atom; reflexivity. }
    refine (means_cons _ _ _ _ [_] _ (Ok ([], _)) _ (means_nil _ _)).
    (* the list *)
    refine (means_list _ _ _ _ _ _ _ (Ok ([_; _], _)) _ _).
    { intros name args [? [? [? [? [? [Q N]]]]]]. injection Q as <-. discriminate N. }
    refine (means_cons _ _ _ _ [_] _ (Ok ([_], _)) _ _).
    { apply means_symbol. intros name N. discriminate N. }
    refine (means_cons _ _ _ _ [_] _ (Ok ([], _)) _ (means_nil _ _)).
    (* the variable *)
    refine (means_variable _ _ (b "x") _ _ (Ok ([_], _)) _ _ _); [reflexivity|vm_compute; reflexivity|].
    refine (means_cons _ _ _ _ [_] _ (Ok ([], _)) _ (means_nil _ _)).
    eapply means_atom; reflexivity.
  - vm_compute. reflexivity.
Qed.

(** An order-dependent program has two meanings. *)
Definition c67_twice := b "(%define (f &&r) (v %r)) (%f :a 1 :b 2)".
Example c67_two : exists ns c ns' c',
  program_means env1 [] c67_twice (Ok (ns, c)) /\ display ns = b " (v :a 1 :b 2)" /\
  program_means env1 [] c67_twice (Ok (ns', c')) /\ display ns' = b " (v :b 2:a 1)".
Proof.
  destruct (expanded_by env1 60 [] c67_twice (fun ns _ => display ns = b " (v :a 1 :b 2)")) as [ns [s [R D]]];
    [vm_compute; reflexivity|].
  destruct (expanded_by reversed 60 [] c67_twice (fun ns _ => display ns = b " (v :b 2:a 1)")) as [ns' [s' [R' D']]];
    [vm_compute; reflexivity|].
  exists ns, (visible s), ns', (visible s'). split; [|split; [exact D|split; [|exact D']]];
    (apply c67_program; [exact env1_reads|apply is_utf8; reflexivity|]).
  - exists (e_order env1), (Ok (ns, s)). split; [exact env1_order|]. split; [|reflexivity].
    rewrite with_own_order, <- R. apply expand_settles. rewrite R. discriminate.
  - exists (fun _ l => rev l), (Ok (ns', s')). split; [exact reversed_permuting|]. split; [|reflexivity].
    fold reversed. rewrite <- R'. apply expand_settles. rewrite R'. discriminate.
Qed.

(** One in which the order does not matter has one. *)
Example c67_one : exists ns c, display ns = b " (v a 1 3 :m 4) (v b 5 2) 2" /\
  forall q, program_means env1 [] c36_source q <-> q = Ok (ns, c).
Proof.
  destruct c36_example as [ns [s [R [D G]]]]. exists ns, (visible s). split; [exact D|].
  exact (c67_unique env1 60 [] c36_source ns s env1_reads ltac:(apply is_utf8; reflexivity) env1_order R G).
Qed.

(** One that runs forever has none. *)
Example c67_none : forall q, ~ program_means env1 [] c37_value q.
Proof.
  apply c67_silent; [exact env1_reads|apply is_utf8; reflexivity|]. intros o P. set (E := with_order o env1).
  apply (c37_by E c37_value 1); [vm_compute; reflexivity|].
  assert (G := c37_get E c37_value (b "x") ltac:(vm_compute; reflexivity)).
  remember (c37_macro_of E c37_value (b "x")) as m eqn:M. vm_compute in M.
  apply (c37_variable E m (b "x")); [| | |exact G]; subst m; clear G.
  - reflexivity.
  - eexists [], _, []. split; [reflexivity|]. split; [constructor|]. eexists. split; reflexivity.
  - remember (c37_at E c37_value 1) as n eqn:N. vm_compute in N. subst n. eexists. split; reflexivity.
Qed.
