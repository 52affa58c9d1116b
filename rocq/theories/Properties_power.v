(** * Property C74: what a program does not mention it cannot use

    [without], [withheld], [confined], [same_but]: Spec_power.v.  The rules
    are those of Spec_lang.v (C67). *)

From Coq Require Import String List Ascii Bool Arith ZArith Permutation.
From Verif Require Import Text Utf8 Debug Res Ast Parser Env Scope State Spec_print Spec_tree Spec_expand Spec_final Spec_keep Spec_loop Spec_order Spec_power
  Proofs_print Proofs_power Conformance Runs Properties_macros Properties_lang Properties_final.
From Verif Require Import Args Expander Spec_lang.
Import ListNotations.

(** Worlds that differ only in what macros look at that the program does not
    mention allow it the same outcomes. *)
Theorem c74_outcomes : forall M E E' path text, withheld M -> reads_text E -> utf8 text ->
  confined M E text -> same_but M E E' ->
  forall r, program_means E path text r <-> program_means E' path text r.
Proof. intros M E E' path text W T U C S r. exact (program_same M W E E' path text r (or_intror T) U C S). Qed.
Print Assumptions c74_outcomes.

(** Of runs: what one ends with in one world, one ends with in the other. *)
Theorem c74_runs : forall M E E' path text f, withheld M -> reads_text E -> reads_text E' -> permuting E -> utf8 text ->
  confined M E text -> same_but M E E' -> expand E f path text <> OutOfFuel ->
  exists o f', permuting (with_order o E') /\
    seen (expand (with_order o E') f' path text) = seen (expand E f path text).
Proof.
  intros M E E' path text f W T T' P U C S N. pose proof (c67_sound E T P f path text U N) as H.
  apply (c74_outcomes M E E' path text W T U C S) in H. apply (c67_program E' T' path text U) in H.
  destruct H as [o [r [PO [[N' [f' R]] SR]]]]. exists o, f'. split; [exact PO|]. rewrite <- SR. f_equal. exact (R f' (le_n _)).
Qed.
Print Assumptions c74_runs.

(** If no order of surplus keywords mattered, then every run in the other
    world that ends gives the same nodes, definitions, log and files. *)
Theorem c74_unique : forall M E E' path text f ns s, withheld M -> reads_text E -> reads_text E' -> permuting E -> permuting E' ->
  utf8 text -> confined M E text -> same_but M E E' ->
  expand E f path text = Ok (ns, s) -> g_ordered (x_world s) = 0 ->
  forall f', expand E' f' path text <> OutOfFuel -> seen (expand E' f' path text) = Ok (ns, visible s).
Proof.
  intros M E E' path text f ns s W T T' P P' U C S R O f' N.
  apply (c67_unique E f path text ns s T U P R O). apply (c74_outcomes M E E' path text W T U C S).
  exact (c67_sound E' T' P' f' path text U N).
Qed.
Print Assumptions c74_unique.

(** ** Files, environment variables, the clock *)

Definition with_files (read : bytes -> option bytes) (dirs : list bytes) (E : env) : env := {|
  e_order := e_order E; e_unescape := e_unescape E; e_read := read; e_includes := dirs;
  e_getenv := e_getenv E; e_hash := e_hash E; e_float := e_float E; e_fixed := e_fixed E;
  e_local := e_local E; e_time_ok := e_time_ok E; e_date := e_date E; e_parse_date := e_parse_date E;
  e_parse_naive := e_parse_naive E; e_template := e_template E; e_format := e_format E;
  e_html := e_html E; e_front := e_front E; e_yaml := e_yaml E; e_toml := e_toml E; e_glob := e_glob E;
  e_unsorted := e_unsorted E; e_unlisted := e_unlisted E
|}.
Definition with_variables (getenv : bytes -> option bytes) (E : env) : env := {|
  e_order := e_order E; e_unescape := e_unescape E; e_read := e_read E; e_includes := e_includes E;
  e_getenv := getenv; e_hash := e_hash E; e_float := e_float E; e_fixed := e_fixed E;
  e_local := e_local E; e_time_ok := e_time_ok E; e_date := e_date E; e_parse_date := e_parse_date E;
  e_parse_naive := e_parse_naive E; e_template := e_template E; e_format := e_format E;
  e_html := e_html E; e_front := e_front E; e_yaml := e_yaml E; e_toml := e_toml E; e_glob := e_glob E;
  e_unsorted := e_unsorted E; e_unlisted := e_unlisted E
|}.
(** Another time zone, and another time that it is now. *)
Definition with_clock (offset : Z) (now : Z -> bytes -> option bytes) (E : env) : env := {|
  e_order := e_order E; e_unescape := e_unescape E; e_read := e_read E; e_includes := e_includes E;
  e_getenv := e_getenv E; e_hash := e_hash E; e_float := e_float E; e_fixed := e_fixed E;
  e_local := offset; e_time_ok := e_time_ok E;
  e_date := fun t off fmt => match t with Now => now off fmt | At _ => e_date E t off fmt end;
  e_parse_date := e_parse_date E;
  e_parse_naive := e_parse_naive E; e_template := e_template E; e_format := e_format E;
  e_html := e_html E; e_front := e_front E; e_yaml := e_yaml E; e_toml := e_toml E; e_glob := e_glob E;
  e_unsorted := e_unsorted E; e_unlisted := e_unlisted E
|}.
Definition program_without (M : list bytes) (E : env) (text : bytes) : Prop :=
  forall tree, parse (e_unescape E) 0 text = Ok tree -> Forall (without M) tree.
Definition files_without (M : list bytes) (E : env) : Prop := forall path text id tree,
  e_read E path = Some text -> parse (e_unescape E) id text = Ok tree -> Forall (without M) tree.

Ltac held := split; [cbn; tauto|split; [intros H; cbn in H; repeat (destruct H as [H|H]; [discriminate H|]); exact H|
  intros m H; cbn in H; repeat (destruct H as [<-|H]; [vm_compute; tauto|]); contradiction]].
Ltac differ := constructor; try reflexivity; try (right; repeat split; reflexivity); left; apply incl_refl || (intros m H; cbn in *; tauto).

(** Without %include and %embed the files do not matter. *)
Theorem c74_files : forall E path text read dirs, utf8 text -> dates_are_dates E ->
  program_without [b "include"; b "embed"; b "symbol"] E text ->
  forall r, program_means E path text r <-> program_means (with_files read dirs E) path text r.
Proof.
  intros E path text read dirs U D P r. apply program_same with [b "include"; b "embed"; b "symbol"].
  - held.
  - left. left. reflexivity.
  - exact U.
  - constructor; [exact P|left; left; reflexivity|right; exact D].
  - differ.
Qed.
Print Assumptions c74_files.

(** Without %os/env the environment variables do not matter. *)
Theorem c74_variables : forall E path text getenv, reads_text E -> utf8 text -> dates_are_dates E ->
  program_without [b "os/env"; b "symbol"] E text -> files_without [b "os/env"; b "symbol"] E ->
  forall r, program_means E path text r <-> program_means (with_variables getenv E) path text r.
Proof.
  intros E path text getenv T U D P F r. apply program_same with [b "os/env"; b "symbol"].
  - held.
  - right. exact T.
  - exact U.
  - constructor; [exact P|right; exact F|right; exact D].
  - differ.
Qed.
Print Assumptions c74_variables.

(** Without %date and %timestamp it does not matter when and where the
    program runs. *)
Theorem c74_clock : forall E path text offset now, reads_text E -> utf8 text -> dates_are_dates E ->
  program_without [b "date"; b "timestamp"; b "symbol"] E text -> files_without [b "date"; b "timestamp"; b "symbol"] E ->
  forall r, program_means E path text r <-> program_means (with_clock offset now E) path text r.
Proof.
  intros E path text offset now T U D P F r. apply program_same with [b "date"; b "timestamp"; b "symbol"].
  - held.
  - right. exact T.
  - exact U.
  - constructor; [exact P|right; exact F|right; exact D].
  - differ.
Qed.
Print Assumptions c74_clock.

(** ** Effects *)

Lemma same_self M E : same_but M E E.
Proof. constructor; try reflexivity; right; repeat split; reflexivity. Qed.

(** Without %log nothing is logged. *)
Theorem c74_quiet : forall E f path text ns s, reads_text E -> permuting E -> utf8 text -> dates_are_dates E ->
  program_without [b "log"; b "symbol"] E text -> files_without [b "log"; b "symbol"] E ->
  expand E f path text = Ok (ns, s) -> g_log (x_world s) = [].
Proof.
  intros E f path text ns s T PM U D P F R. assert (W : withheld [b "log"; b "symbol"]) by held.
  pose proof (c67_sound E T PM f path text U) as H. rewrite R in H. specialize (H ltac:(discriminate)).
  assert (C : confined [b "log"; b "symbol"] E text) by (constructor; [exact P|right; exact F|right; exact D]).
  destruct (program_one _ W E E path text _ (or_intror T) U C (same_self _ E) H) as [_ K].
  destruct (K _ _ eq_refl) as [_ [L _]]. apply L. left. reflexivity.
Qed.
Print Assumptions c74_quiet.

(** Without %include no source but the program is read. *)
Theorem c74_alone : forall E f path text ns s, reads_text E -> permuting E -> utf8 text -> dates_are_dates E ->
  program_without [b "include"; b "symbol"] E text ->
  expand E f path text = Ok (ns, s) -> g_sources (x_world s) = [(path, text)].
Proof.
  intros E f path text ns s T PM U D P R. assert (W : withheld [b "include"; b "symbol"]) by held.
  pose proof (c67_sound E T PM f path text U) as H. rewrite R in H. specialize (H ltac:(discriminate)).
  assert (C : confined [b "include"; b "symbol"] E text) by (constructor; [exact P|left; left; reflexivity|right; exact D]).
  destruct (program_one _ W E E path text _ (or_intror T) U C (same_self _ E) H) as [_ K].
  destruct (K _ _ eq_refl) as [_ [_ L]]. apply L. left. reflexivity.
Qed.
Print Assumptions c74_alone.

(** Nor does the output mention what was withheld. *)
Theorem c74_output : forall M E f path text ns s, withheld M -> reads_text E -> permuting E -> utf8 text -> confined M E text ->
  expand E f path text = Ok (ns, s) -> Forall (without M) ns.
Proof.
  intros M E f path text ns s W T PM U C R.
  pose proof (c67_sound E T PM f path text U) as H. rewrite R in H. specialize (H ltac:(discriminate)).
  destruct (program_one _ W E E path text _ (or_intror T) U C (same_self _ E) H) as [_ K].
  exact (proj1 (K _ _ eq_refl)).
Qed.
Print Assumptions c74_output.

(** ** %symbol has to be withheld as well *)

Definition c74_made := b "(%apply (%symbol ""os/env"") HOME)".
Theorem c74_symbol_refuted : program_without [b "os/env"] env1 c74_made /\
  exists getenv ns s ns' s', expand env1 20 [] c74_made = Ok (ns, s) /\
    expand (with_variables getenv env1) 20 [] c74_made = Ok (ns', s') /\ map shape ns <> map shape ns'.
Proof.
  split.
  - intros tree P. apply (f_equal (fun r => match r with Ok t => t | _ => [] end)) in P. cbv beta iota in P. subst tree.
    vm_compute. repeat constructor. intros m [<-|[]] [H|H]; repeat destruct H as [H|H]; try discriminate; contradiction.
  - exists (fun _ => Some (b "elsewhere")). do 4 eexists. split; [vm_compute; reflexivity|]. split; [vm_compute; reflexivity|].
    vm_compute. discriminate.
Qed.
Print Assumptions c74_symbol_refuted.

(** ** Examples *)

Definition withoutb (M : list bytes) (n : node) : bool :=
  forallb (fun m => forallb (fun v => negb (beq v m) && negb (beq v (b "%" ++ m))) (symbols n)) M.
Lemma withoutb_ok M ns : forallb (withoutb M) ns = true -> Forall (without M) ns.
Proof.
  intros H. rewrite Forall_forall. intros n I m J. rewrite forallb_forall in H. specialize (H _ I). unfold withoutb in H.
  rewrite forallb_forall in H. specialize (H _ J). rewrite forallb_forall in H.
  intros [K|K]; specialize (H _ K); rewrite Proofs_text.beq_refl in H; rewrite ?andb_false_r in H; discriminate H.
Qed.

(** A program that includes a file of macros (C72) and defines, calls and
    imports things, but does not look at variables and is silent. *)
Definition c74_held := [b "os/env"; b "log"; b "glob"; b "date"; b "symbol"].
Example c74_conditions : withheld c74_held /\ confined c74_held c72_env c72_text /\
  program_without [b "os/env"; b "symbol"] c72_env c72_text /\ files_without [b "os/env"; b "symbol"] c72_env.
Proof.
  assert (P : forall M, match parse ref_unescape 0 c72_text with Ok t => forallb (withoutb M) t | _ => true end = true ->
    program_without M c72_env c72_text).
  { intros M H tree X. cbn [e_unescape c72_env] in X. rewrite X in H. apply withoutb_ok, H. }
  assert (F : forall M, (forall id, match parse ref_unescape id c72_file with Ok t => forallb (withoutb M) t | _ => true end = true) ->
    files_without M c72_env).
  { intros M H path text id tree R X. cbn [e_unescape e_read c72_env] in *. destruct (beq path _); [|discriminate]. injection R as <-.
    specialize (H id). rewrite X in H. apply withoutb_ok, H. }
  split; [held|]. split; [|split; [apply P; vm_compute; reflexivity|apply F; intros id; vm_compute; reflexivity]].
  constructor.
  - apply P. vm_compute. reflexivity.
  - right. apply F. intros id. vm_compute. reflexivity.
  - right. apply c72_conditions.
Qed.
Example c74_example : forall getenv,
  let E' := with_variables getenv c72_env in
  exists ns s, expand c72_env 30 [] c72_text = Ok (ns, s) /\ Format.sexp_gen (fun _ => true) ns = c72_result /\
    length (g_sources (x_world s)) = 2 /\
    (forall f', expand E' f' [] c72_text <> OutOfFuel -> seen (expand E' f' [] c72_text) = Ok (ns, visible s)).
Proof.
  intros getenv E'. destruct c72_conditions as [T [P [U [_ [D _]]]]]. destruct c74_conditions as [W [C _]].
  assert (X : match expand c72_env 30 [] c72_text with
              | Ok (ns, s) => Format.sexp_gen (fun _ => true) ns = c72_result /\ length (g_sources (x_world s)) = 2 /\ g_ordered (x_world s) = 0
              | _ => False end) by (vm_compute; auto).
  destruct (expand c72_env 30 [] c72_text) as [[ns s]| | | |] eqn:R; try contradiction. destruct X as [G [L O]].
  exists ns, s. split; [reflexivity|]. split; [exact G|]. split; [exact L|].
  apply (c74_unique c74_held c72_env E' [] c72_text 30 ns s W T T P P U C); [|exact R|exact O]. differ.
Qed.
