(** * Property C70: the program from its arguments to its output *)

From Coq Require Import String List Ascii Bool Arith Permutation.
From Verif Require Import Text Utf8 Res Ast Env State Paths Parser Expander Cli Spec_keep Spec_place Spec_order Spec_expand Spec_loop Spec_markup Spec_element Spec_cli Spec_lang
  Spec_seam Proofs_print Proofs_run Proofs_eval Proofs_place Proofs_cli Proofs_meaning Proofs_seam Proofs_env0 Conformance Runs Properties_macros
  Properties_cli Properties_loop.
Import ListNotations.

(** What the rules say the program prints, and how they say it ends, is what
    it does for some orders of its hash maps. *)
Theorem c70_program : forall W args out e, textual_world W ->
  Seam W args out e <->
  e <> Unfinished /\ exists os, (forall n, permuting (with_order (os n) (w_env W n))) /\
    exists f0, forall f, f0 <= f -> main (with_orders os W) f args = (out, e).
Proof. exact seam_iff. Qed.
Print Assumptions c70_program.

(** A run that ended with some budget ends like that with every larger one. *)
Theorem c70_budget : forall W f f' args out e, f <= f' -> main W f args = (out, e) -> e <> Unfinished ->
  main W f' args = (out, e).
Proof. exact main_more. Qed.
Print Assumptions c70_budget.

(** The rules give no outcome for the arguments exactly if the program never
    ends, whatever the orders. *)
Theorem c70_silent : forall W args, textual_world W ->
  (forall out e, ~ Seam W args out e) <->
  forall os, (forall n, permuting (with_order (os n) (w_env W n))) ->
    forall f, snd (main (with_orders os W) f args) = Unfinished.
Proof. exact seam_silent. Qed.
Print Assumptions c70_silent.

(** They give at most one if they give at most one to each source. *)
Theorem c70_determined : forall W args out e out' e', textual_world W -> (forall path, unambiguous W path) ->
  Seam W args out e -> Seam W args out' e' -> out = out' /\ e = e'.
Proof. exact seam_determined. Qed.
Print Assumptions c70_determined.

(** ** Examples *)

Lemma files_textual input : (forall t, input = Some t -> utf8 t) -> textual_world (c42_world input).
Proof.
  intros H. split; [|exact H]. intros n. apply textual_env0. repeat constructor; apply is_utf8; reflexivity.
Qed.

(** Files, standard input, an included file, an error in the second file. *)
Definition c70_input (s : string) : option bytes := Some (b s).
Lemma input_textual s : forallb (fun c => nat_of_ascii c <=? 127) (b s) = true -> textual_world (c42_world (c70_input s)).
Proof. intros H. apply files_textual. intros t Q. injection Q as <-. apply is_utf8, H. Qed.

Example c70_example :
  Seam (c42_world (c70_input "(br)")) [b "two"; b "--xml"; b "-Ilib"; b "-"; b "one"; b "--html"]
    (b "<!DOCTYPE html>
<html>
<head></head>
<body>
<br>
</body>
</html>
<!DOCTYPE html>
<html>
<head></head>
<body>
<p>&lt;&amp;&gt;</p>
</body>
</html>
<!DOCTYPE html>
<html>
<head></head>
<body>
<p>1</p>
</body>
</html>
") (Exit 0) /\
  Seam (c42_world (c70_input "")) [b "--sexp"; b "one"; b "bad"; b "two"] (b "(p 1)
") (Exit 1).
Proof.
  split; (eapply (seam_sound _ (fun _ _ l => l) 60);
    [apply input_textual; reflexivity|intros n s l; apply Permutation_refl|vm_compute; reflexivity|discriminate]).
Qed.

(** A derivation by the rules alone. *)
Example c70_derivation : Seam (c42_world (c70_input "a<b")) [b "--html"; b "--nodoc"] (b "a&lt;b
") (Exit 0).
Proof.
  destruct (c42_documented (c42_world (c70_input "a<b"))) as [T [_ [N _]]].
  eapply (seam_prints _ _ [Target (b "html"); NoDocument] [] (b "html") [None] false [b "."]).
  - constructor; [apply (T (b "html")); right; right; left; reflexivity|]. constructor; [exact N|constructor].
  - repeat constructor.
  - reflexivity.
  - left. split; [right; reflexivity|reflexivity].
  - split; [intros _; right; left; reflexivity|reflexivity].
  - split; [repeat constructor|]. intros d. cbn. split.
    + intros [<-|[]]. exists [], []. split; [reflexivity|constructor].
    + intros [be [af [Q _]]]. destruct be as [|x [|y be]]; [injection Q as <- _; auto|discriminate|discriminate].
  - change (b "a&lt;b
") with (b "a&lt;b" ++ [LF] ++ []). eapply pr_next; [|apply pr_done].
    eapply tr_writes; [reflexivity| |].
    + eapply program_tree.
      * apply syntax_iff; [apply is_utf8; reflexivity|vm_compute; reflexivity].
      * refine (means_cons _ _ _ _ [_] _ (Ok ([], _)) _ (means_nil _ _)).
        apply means_symbol. intros name Q. discriminate Q.
    + apply out_bare, wa_html. change (b "a&lt;b") with ([] ++ b "a&lt;b" ++ []) at 1. rewrite app_assoc.
      eapply hs_cons; [|constructor]. apply h_atom. eexists. split; [left; reflexivity|]. cbn [a_val].
      apply esc_char; [cbn; intuition discriminate|]. apply (esc_entity (b "&lt;") "<"%char); [left; reflexivity|].
      apply esc_char; [cbn; intuition discriminate|constructor].
Qed.

Lemma env1_textual : textual env1.
Proof. apply textual_env0. constructor. Qed.

(** A program with two outcomes: the order of surplus keywords is that of a
    hash map. *)
Example c70_two : let W := c42_world (c70_input "(%define (f &&r) (v %r)) (%f :a 1 :b 2)") in
  Seam W [b "--text"] (b " (v :a 1 :b 2)
") (Exit 0) /\ Seam W [b "--text"] (b " (v :b 2:a 1)
") (Exit 0).
Proof.
  split.
  - eapply (seam_sound _ (fun _ _ l => l) 60);
      [apply input_textual; reflexivity|intros n s l; apply Permutation_refl|vm_compute; reflexivity|discriminate].
  - eapply (seam_sound _ (fun _ _ l => rev l) 60);
      [apply input_textual; reflexivity|intros n s l; apply Permutation_sym, Permutation_rev|vm_compute; reflexivity|discriminate].
Qed.

(** One without any: the value of [x] is the symbol [%x]. *)
Definition c70_world : world := World (fun _ => false) (Some c37_value) (fun _ => env1) (fun _ => true) (fun _ _ => true).
Lemma loops_forever os f : snd (main (with_orders os c70_world) f [b "--text"]) = Unfinished.
Proof.
  set (E := with_includes [b "."] (with_order (os 0) env1)).
  assert (D : program_diverges E (b "<stdin>") c37_value).
  { destruct (parse (e_unescape E) 0 c37_value) as [t| | | |] eqn:P; try (vm_compute in P; discriminate P).
    destruct (expand_nodes E 60 (firstn 1 t) (initial (b "<stdin>") c37_value)) as [[ns s]| | | |] eqn:R;
      vm_compute in P; injection P as <-; try (vm_compute in R; discriminate R).
    eapply (c37_program E (b "<stdin>") c37_value _ [_] _ []); [vm_compute; reflexivity|reflexivity| |].
    - unfold evals. cbn [firstn] in R. rewrite <- R. apply evals_at. rewrite R. discriminate.
    - vm_compute in R. injection R as <- <-. eapply (c37_variable E _ (b "x")); [| | |vm_compute; reflexivity].
      + reflexivity.
      + eexists [], _, []. split; [reflexivity|]. split; [constructor|]. eexists. split; reflexivity.
      + eexists. split; reflexivity. }
  unfold main. replace (read_args (with_orders os c70_world) [b "--text"] defaults)
    with (@inl config nat (Config [] (b "text") [] false true)) by reflexivity.
  cbn [files target]. change (beq (b "text") []) with false. cbn [app map run_jobs include_dirs].
  change (include_set []) with [b "."]. change (with_includes [b "."] (w_env (with_orders os c70_world) 0)) with E.
  change (w_stdin (with_orders os c70_world)) with (Some c37_value). cbv iota beta. rewrite (D f). reflexivity.
Qed.
Lemma loop_textual : textual_world c70_world.
Proof. split; [intros n; apply env1_textual|]. intros t Q. injection Q as <-. apply is_utf8. reflexivity. Qed.
Example c70_none : forall out e, ~ Seam c70_world [b "--text"] out e.
Proof. apply c70_silent; [exact loop_textual|]. intros os _ f. apply loops_forever. Qed.

(** A world of one source, with one meaning. *)
Definition c70_plain : world := World (fun _ => false) (Some (b "(p a)")) (fun _ => env1) (fun _ => true) (fun _ _ => true).
Example c70_one : textual_world c70_plain /\ (forall path, unambiguous c70_plain path) /\
  Seam c70_plain [b "--html"; b "--nodoc"] (b "<p>a</p>
") (Exit 0).
Proof.
  split; [|split].
  - split; [intros n; apply env1_textual|]. intros t Q. injection Q as <-. apply is_utf8. reflexivity.
  - intros path n job name text q q' S. destruct job as [p|]; [discriminate S|]. injection S as <- <-.
    set (E := with_includes path env1). change (w_env c70_plain n) with env1. fold E.
    destruct (expand E 60 (b "<stdin>") (b "(p a)")) as [[ns s]| | | |] eqn:R; try (vm_compute in R; discriminate R).
    assert (G : g_ordered (x_world s) = 0) by (vm_compute in R; injection R as <- <-; reflexivity).
    assert (U := program_unique E 60 (b "<stdin>") (b "(p a)") ns s ltac:(intros ? ? X; discriminate X) ltac:(apply is_utf8; reflexivity) env1_order R G).
    intros M M'. apply U in M, M'. congruence.
  - eapply (seam_sound _ (fun _ _ l => l) 60); [|intros n s l; apply Permutation_refl|vm_compute; reflexivity|discriminate].
    split; [intros n; apply env1_textual|]. intros t Q. injection Q as <-. apply is_utf8. reflexivity.
Qed.
