(** * Property C72: expansion leaves nothing to expand

    [macro_free] (Spec_expand.v): no symbol in the node starts with a percent
    sign.  [symbol_unused] (Spec_final.v): the node does not mention the macro
    %symbol, the only one that makes symbols of text. *)

From Coq Require Import String List Ascii Bool Arith ZArith Permutation.
From Verif Require Import Text Utf8 Debug Res Ast Parser Format Env Scope State Spec_tree Spec_print Spec_keep Spec_expand Spec_final
  Proofs_print Proofs_final Proofs_reprint Conformance Runs Properties_parser Properties_macros Properties_lang.
From Verif Require Import Args Expander Spec_lang.
Import ListNotations.

(** A program is closed if neither it nor any file mentions %symbol, and the
    TOML library gives dates that look like dates. *)
Definition makes_no_symbols (E : env) (text : bytes) : Prop :=
  symbol_unused_in_files E /\ dates_are_dates E /\
  forall tree, parse (e_unescape E) 0 text = Ok tree -> Forall symbol_unused tree.

(** No call of a macro, nor a use of a variable, is left in its output. *)
Theorem c72_final : forall E f path text ns s, reads_text E -> permuting E -> utf8 text ->
  makes_no_symbols E text -> expand E f path text = Ok (ns, s) -> Forall macro_free ns.
Proof.
  intros E f path text ns s T P U [F [D N]] R.
  apply (program_final E path text ns (visible s) T F D U N).
  pose proof (c67_sound E T P f path text U) as M. rewrite R in M. apply M. discriminate.
Qed.
Print Assumptions c72_final.

(** So its output, expanded again in whatever state, is what it was, and
    nothing else happens. *)
Theorem c72_again : forall E f path text ns s, reads_text E -> permuting E -> utf8 text ->
  makes_no_symbols E text -> expand E f path text = Ok (ns, s) ->
  forall E' s1, exists s2, evals E' ns s1 (Ok (ns, s2)) /\ x_defs s2 = x_defs s1 /\ x_world s2 = x_world s1.
Proof.
  intros E f path text ns s T P U N R E' s1. apply c21_macro_free. exact (c72_final E f path text ns s T P U N R).
Qed.
Print Assumptions c72_again.

(** And the output written as S-expressions is a program that gives itself:
    also where it contains raw text, which is written as a call of %raw.
    (When S-expressions can be read back is said in C09.) *)
Theorem c72_output : forall E f path text ns s printable, reads_text E -> permuting E -> utf8 text ->
  makes_no_symbols E text -> expand E f path text = Ok (ns, s) ->
  (forall v, utf8 v -> e_unescape E (debug_body printable v) = Some v) -> all_readable ns -> spaced ns ->
  forall path', exists ns' s' f', expand E f' path' (sexp_gen printable ns) = Ok (ns', s') /\
    map strip ns' = map strip ns /\ sexp_gen printable ns' = sexp_gen printable ns.
Proof.
  intros E f path text ns s printable T P U N R H A S path'.
  exact (output_again E printable path' ns H A S (c72_final E f path text ns s T P U N R)).
Qed.
Print Assumptions c72_output.

(** The condition is needed: %symbol makes a use of a variable out of text. *)
Definition c72_symbol := b "(%symbol ""%x"")".
Theorem c72_symbol_refuted : exists ns s, expand env1 20 [] c72_symbol = Ok (ns, s) /\ ~ Forall macro_free ns /\
  exists st s', evals env1 ns s' (Err (EErr EUndefined st)).
Proof.
  do 2 eexists. split; [vm_compute; reflexivity|]. split.
  - intros H. inversion H as [|? ? M _]; subst. inversion M as [|? ? X _]; subst. discriminate X.
  - eexists _, (initial [] []). match goal with |- evals _ ?ns ?s ?r => pose proof (evals_at env1 5 ns s) as A end.
    vm_compute expand_nodes in A. apply A. discriminate.
Qed.
Print Assumptions c72_symbol_refuted.

(** ** Examples *)

Definition c72_unusedb (n : node) : bool :=
  forallb (fun v => negb (beq v (b "symbol")) && negb (beq v (b "%symbol"))) (symbols n).
Lemma c72_unused ns : forallb c72_unusedb ns = true -> Forall symbol_unused ns.
Proof.
  intros H. rewrite Forall_forall. intros n I. rewrite forallb_forall in H. specialize (H _ I). unfold c72_unusedb in H.
  rewrite forallb_forall in H. split; intros J; specialize (H _ J); vm_compute in H; discriminate.
Qed.

(** A file with a macro, TOML documents with a date and a truth value. *)
Definition c72_file := b "(%define (bold x) (%raw ""<b>"" %x ""</b>""))".
Definition c72_env : env := {|
  e_order := fun _ l => l;
  e_unescape := ref_unescape;
  e_read := fun p => if beq p (b "./lib.sex") then Some c72_file else None;
  e_includes := [b "."];
  e_getenv := e_getenv env1;
  e_hash := e_hash env1;
  e_float := e_float env1;
  e_fixed := e_fixed env1;
  e_local := 0%Z;
  e_time_ok := fun _ => true;
  e_date := fun _ _ _ => None;
  e_parse_date := fun _ _ => None;
  e_parse_naive := fun _ _ => None;
  e_template := fun _ => true;
  e_format := fun _ _ => None;
  e_html := fun _ => None;
  e_front := fun _ => None;
  e_yaml := fun _ => ([], false);
  e_toml := fun t => Some [if beq t (b "doc") then (b "ok", TomlBool true) else (b "day", TomlDate (b "1979-05-27"))];
  e_glob := fun _ => None;
  e_unsorted := fun _ => None;
  e_unlisted := fun _ => (0, [])
|}.
Definition c72_text := b "(%include lib) (%toml ""doc"")
(%define x hey) (p :class %x (%bold ""%x"") (%lambda (y) %x))".
Definition c72_result := b "(:ok true) (p :class hey (%raw ""<b> %x </b>"") __lambda2-71)".

Example c72_conditions : reads_text c72_env /\ permuting c72_env /\ utf8 c72_text /\ makes_no_symbols c72_env c72_text.
Proof.
  split; [|split; [|split; [|split; [|split]]]].
  - intros p t. cbn. destruct (beq p _); [|discriminate]. intros H. injection H as <-. apply is_utf8. vm_compute. reflexivity.
  - intros seed l. apply Permutation_refl.
  - apply is_utf8. vm_compute. reflexivity.
  - intros p t id tree. cbn [e_read e_unescape c72_env]. destruct (beq p _); [|discriminate]. intros H. injection H as <-. intros P.
    apply (f_equal (fun r => match r with Ok t => t | _ => [] end)) in P. cbv beta iota in P. subst tree.
    apply c72_unused. vm_compute. reflexivity.
  - intros t l. cbn [e_toml c72_env]. destruct (beq t _); intros H; injection H as <-;
      repeat constructor; apply Nat.leb_le; vm_compute; reflexivity.
  - intros tree P. apply (f_equal (fun r => match r with Ok t => t | _ => [] end)) in P. cbv beta iota in P. subst tree.
    apply c72_unused. vm_compute. reflexivity.
Qed.

Example c72_example : exists ns s ns' s' f, expand c72_env 30 [] c72_text = Ok (ns, s) /\
  sexp_gen (fun _ => true) ns = c72_result /\ Forall macro_free ns /\
  expand c72_env f [] c72_result = Ok (ns', s') /\ sexp_gen (fun _ => true) ns' = c72_result.
Proof.
  destruct c72_conditions as [T [P [U N]]].
  assert (X : match expand c72_env 30 [] c72_text with
              | Ok (ns, s) => sexp_gen (fun _ => true) ns = c72_result /\ forallb readableb ns = true /\ spacedb ns = true
              | _ => False end) by (vm_compute; auto).
  destruct (expand c72_env 30 [] c72_text) as [[ns s]| | | |] eqn:R; try contradiction. destruct X as [G [A S]].
  assert (A' : all_readable ns).
  { clear -A. induction ns as [|n ns IH]; [exact I|]. cbn in A. apply andb_prop in A as [A1 A2]. split; [apply readableb_ok, A1|auto]. }
  destruct (c72_output c72_env 30 [] c72_text ns s (fun _ => true) T P U N R (fun v V => c09_reader_exists _ v V) A' (spacedb_ok _ S) [])
    as [ns' [s' [f [R' [_ G']]]]].
  rewrite G in R', G'. exists ns, s, ns', s', f. split; [reflexivity|]. split; [exact G|].
  split; [exact (c72_final _ _ _ _ _ _ T P U N R)|]. split; assumption.
Qed.

(** A date, with which one could not write the result to be read again: there
    it would be a number. *)
Definition c72_date := b "(%toml ""day"")".
Example c72_date_example : exists ns s, expand c72_env 30 [] c72_date = Ok (ns, s) /\
  flat_map symbols ns = [b "1979-05-27"] /\ Forall macro_free ns.
Proof.
  destruct c72_conditions as [T [P [_ [F [D _]]]]].
  assert (X : match expand c72_env 30 [] c72_date with Ok (ns, s) => flat_map symbols ns = [b "1979-05-27"] | _ => False end)
    by (vm_compute; reflexivity).
  destruct (expand c72_env 30 [] c72_date) as [[ns s]| | | |] eqn:R; try contradiction. exists ns, s.
  split; [reflexivity|]. split; [exact X|]. apply (c72_final c72_env 30 [] c72_date ns s T P); [apply is_utf8; vm_compute; reflexivity| |exact R].
  split; [exact F|]. split; [exact D|]. intros tree Q.
  apply (f_equal (fun r => match r with Ok t => t | _ => [] end)) in Q. cbv beta iota in Q. subst tree.
  apply c72_unused. vm_compute. reflexivity.
Qed.
