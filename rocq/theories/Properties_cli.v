(** * Property C42: the command line *)

From Coq Require Import String List Ascii Bool Arith Sorting.Sorted.
From Verif Require Import Text Res Ast Env State Paths Format Expander Cli Spec_scope Spec_cli
  Proofs_text Proofs_cli Conformance.
Import ListNotations.

(** Every argument has exactly one meaning. *)
Theorem c42_meaning : forall W arg, exists c, understood W arg c /\ forall c', understood W arg c' -> c' = c.
Proof.
  intros W arg. destruct (understood_some W arg) as [c H]. exists c. split; [exact H|].
  intros c' H'. exact (understood_unique W arg c' c H' H).
Qed.
Print Assumptions c42_meaning.

(** The first argument that is wrong, or asks for the version, ends the
    program, and nothing is printed on standard output. *)
Theorem c42_stops : forall W fuel before cs arg c code after,
  Forall2 (understood W) before cs -> Forall (fun c => stops c = None) cs ->
  understood W arg c -> stops c = Some code ->
  main W fuel (before ++ arg :: after) = ([], Exit code).
Proof. exact main_stops. Qed.
Print Assumptions c42_stops.

(** So does the lack of a target. *)
Theorem c42_no_target : forall W fuel args cs,
  Forall2 (understood W) args cs -> Forall (fun c => stops c = None) cs -> targets_of cs = [] ->
  main W fuel args = ([], Exit 1).
Proof. exact main_untargeted. Qed.
Print Assumptions c42_no_target.

(** Otherwise the sources are translated, one after the other, to the target
    [t] that was named last. *)
Theorem c42_prints : forall W fuel args cs ts t,
  Forall2 (understood W) args cs -> Forall (fun c => stops c = None) cs -> targets_of cs = ts ++ [t] ->
  exists l doc path, jobs cs l /\ as_document cs doc /\ search_path cs path /\
    prints W fuel t doc path 0 l (fst (main W fuel args)) (snd (main W fuel args)).
Proof. exact main_prints. Qed.
Print Assumptions c42_prints.

(** The outcome of that is determined by the description. *)
Theorem c42_determined : forall W fuel t doc path n l out e out' e',
  prints W fuel t doc path n l out e -> prints W fuel t doc path n l out' e' -> out = out' /\ e = e'.
Proof. exact prints_fun. Qed.
Print Assumptions c42_determined.

(** The documented forms mean what they should, as long as [--] occurs only
    at the beginning. *)
Theorem c42_documented : forall W,
  (forall t, In t target_names -> understood W (b "--" ++ t) (Target t)) /\
  understood W (b "--nodocument") NoDocument /\ understood W (b "--nodoc") NoDocument /\
  understood W (b "-v") Version /\ understood W (b "-") Stdin /\
  (forall dir, ~ occurs (b "--") dir -> understood W (b "-I" ++ dir) (Include dir)).
Proof.
  intros W. repeat split.
  - intros t I. apply u_target; [eexists; reflexivity| |exact I]. apply second_long.
    cbn in I. destruct I as [<-|[<-|[<-|[<-|[<-|[]]]]]]; reflexivity.
  - eapply u_nodoc; [eexists; reflexivity|apply second_long; reflexivity|left; reflexivity].
  - eapply u_nodoc; [eexists; reflexivity|apply second_long; reflexivity|right; left; reflexivity].
  - apply (u_version W []); [apply second_none; reflexivity|left; reflexivity].
  - apply u_stdin.
  - intros dir N. apply u_include. intros [a [r H]]. apply N.
    destruct a as [|c [|d a]]; cbn in H; inversion H as [[H1 H2]]; subst. exists a, r. reflexivity.
Qed.
Print Assumptions c42_documented.

(** The defect: a directory with [--] in its name is no directory. *)
Theorem c42_include_refuted : exists dir dir', forall W,
  understood W (b "-I" ++ dir) Wrong /\ understood W (b "-I" ++ dir') (Target (b "html")).
Proof.
  exists (b "a--b"), (b "a--html"). intros W. split.
  - eapply (u_long W _ (b "b")); [eexists; reflexivity|apply second_long; reflexivity| |];
      cbn; intuition discriminate.
  - apply u_target; [eexists; reflexivity|apply second_long; reflexivity|]. right. right. left. reflexivity.
Qed.
Print Assumptions c42_include_refuted.

(** Examples: the standard input before the files, the last target, an
    included file, an error in the second file. *)
Definition c42_world (input : option bytes) : world := {|
  w_exists := fun p => existsb (beq p) [b "one"; b "two"; b "bad"; b "dir"];
  w_stdin := input;
  w_env := fun _ => env0 [(b "one", b "(p 1)"); (b "two", b "(p (%include part))"); (b "bad", b "(p");
    (b "lib/part", b "<&>")];
  w_printable := fun _ => true;
  w_shows := fun _ _ => true
|}.
Example c42_example :
  main (c42_world (Some (b "(br)"))) 50 [b "two"; b "--xml"; b "-Ilib"; b "-"; b "--nodoc"; b "one"; b "--html"]
    = (b "<br>
<p>&lt;&amp;&gt;</p>
<p>1</p>
", Exit 0) /\
  main (c42_world (Some (b "(br)"))) 50 [b "--sexp"] = (b "(br)
", Exit 0) /\
  main (c42_world None) 50 [b "--sexp"; b "one"; b "bad"; b "two"] = (b "(p 1)
", Exit 1) /\
  main (c42_world None) 50 [b "--sexp"; b "one"; b "dir"] = (b "(p 1)
", Exit 1) /\
  main (c42_world None) 50 [b "--sexp"] = ([], Exit 1) /\
  main (c42_world None) 50 [b "one"] = ([], Exit 1) /\
  main (c42_world None) 50 [b "one"; b "--json"; b "-v"] = ([], Exit 1) /\
  main (c42_world None) 50 [b "one"; b "-v"; b "--json"] = ([], Exit 0) /\
  main (c42_world None) 50 [b "--text"; b "three"] = ([], Exit 1).
Proof. vm_compute. repeat split. Qed.
(** A report that cannot be written. *)
Example c42_unshown :
  let W := World (w_exists (c42_world None)) None (w_env (c42_world None)) (fun _ => true) (fun n _ => n =? 0) in
  main W 50 [b "--sexp"; b "bad"] = ([], Exit 1) /\
  main W 50 [b "--sexp"; b "one"; b "bad"; b "two"] = (b "(p 1)
", Crash PExplicit).
Proof. vm_compute. split; reflexivity. Qed.
Example c42_hypotheses :
  Forall2 (understood (c42_world None)) [b "one"; b "--html"; b "-Ilib"] [Source (b "one"); Target (b "html"); Include (b "lib")].
Proof.
  destruct (c42_documented (c42_world None)) as [T [_ [_ [_ [_ I]]]]].
  constructor; [|constructor; [|constructor; [|constructor]]].
  - apply u_file; [intros [r H]; discriminate H|reflexivity].
  - apply (T (b "html")). right. right. left. reflexivity.
  - apply (I (b "lib")). apply second_none. reflexivity.
Qed.
