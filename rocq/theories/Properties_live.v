(** * Property C43, for programs as they are written

    [includes_directly], [program_directly], [files_directly]: Spec_live.v;
    [live]: Spec_keep.v.  The other theorems of C43 are in
    Properties_state.v. *)

From Coq Require Import String List Ascii Bool Arith Lia.
From Verif Require Import Text Utf8 Res Ast Parser Env Scope State Expander Spec_grammar Spec_tree Spec_expand Spec_final Spec_keep Spec_power Spec_live
  Proofs_text Proofs_print Proofs_kept Proofs_live Conformance Runs Properties_macros Properties_state Properties_power.
Import ListNotations.

(** If neither the program nor any file it could read includes a file inside
    the body of a macro, [%for], [%match] or [%namespace] (or hands a file to
    another macro), then nothing is freed, however long the chain of included
    files: all positions in the output and in the definitions refer to
    sources that still exist. *)
Theorem c43_direct : forall E f path text ns s', reads_text E -> permuting E -> dates_are_dates E -> utf8 text ->
  program_directly E text -> files_directly E -> expand E f path text = Ok (ns, s') ->
  g_freed (x_world s') = [] /\
  Forall (live s') (flat_map node_sites ns) /\
  (forall k m, get k (x_defs s') = Some m -> Forall (live s') (flat_map node_sites (macro_nodes m))).
Proof.
  intros E f path text ns s' T P D U PD FD R. pose proof (direct_unfreed E T P D FD f path text ns s' PD R) as F.
  split; [exact F|]. exact (expand_live E f path text ns s' T U R F).
Qed.
Print Assumptions c43_direct.

(** A program that includes a file in a list, which includes another; the
    definitions of both are used. *)
Definition c43_files : env := env0_with
  [(b "./lib.sex", b "(%define (bold x) (b %x)) (%include more.sex) (p text)"); (b "./more.sex", b "(%define y 2)")] [b "."].
Definition c43_text : bytes := b "(main include (%include lib.sex) :k (%bold %y))".
Ltac nothing := apply direct_none; refine (Forall_inv (withoutb_ok _ [_] _)); vm_compute; reflexivity.
Ltac direct := repeat first
  [ apply List.Forall_nil
  | apply List.Forall_cons
  | solve [apply direct_symbol; vm_compute; reflexivity]
  | solve [eapply (direct_call [_]); [do 5 eexists; split; vm_compute; reflexivity|
      constructor; [refine (Forall_inv (withoutb_ok _ [_] _)); vm_compute; reflexivity|constructor]]]
  | solve [nothing]
  | (apply direct_list; [intros a rest Q; injection Q as <- _; vm_compute; reflexivity|])
  | apply direct_attribute ].
Example c43_direct_example : reads_text c43_files /\ permuting c43_files /\ dates_are_dates c43_files /\
  program_directly c43_files c43_text /\ files_directly c43_files /\
  yields c43_files c43_text (b "(main include (p text) :k (b 2))").
Proof.
  split; [|split; [|split; [|split; [|split]]]].
  - intros p t H. cbn [e_read c43_files env0_with find] in H.
    destruct (beq p (b "./lib.sex")); [injection H as <-; apply is_utf8; vm_compute; reflexivity|].
    destruct (beq p (b "./more.sex")); [injection H as <-; apply is_utf8; vm_compute; reflexivity|discriminate].
  - intros seed l. apply Permutation.Permutation_refl.
  - intros text t H. discriminate.
  - intros tree H. vm_compute in H. injection H as <-. direct.
  - intros p t id tree H Q. cbn [e_read c43_files env0_with find] in H.
    destruct (beq p (b "./lib.sex")); [injection H as <-; vm_compute in Q; injection Q as <-; direct|].
    destruct (beq p (b "./more.sex")); [injection H as <-; vm_compute in Q; injection Q as <-; direct|discriminate].
  - shows.
Qed.
