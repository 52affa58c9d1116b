(** * Properties of whole expansions (C24, C43, C47, C50, C52, C53) *)

From Coq Require Import String List Ascii Bool Arith Lia.
From Verif Require Import Text Utf8 Res Ast Env Scope State Bind Expander Parser Lexer
  Spec_grammar Spec_tree Spec_tokens Spec_args Spec_expand Spec_builtin Spec_bind Spec_control
  Proofs_text Proofs_print Proofs_pos Proofs_run Proofs_eval Conformance Runs Properties_parser Properties_macros
  Spec_keep Proofs_keep Proofs_kept Proofs_env0.
Import ListNotations.

(** ** C24: macro bodies cannot change anything for the caller *)

(** A call of a user macro: [s1] is the state after expanding the arguments;
    of what the body does only log output and files read remain. *)
Theorem c24_call : forall E, permuting E -> forall name args n s ns s',
  find_builtin name = None -> is_call name args n -> eval E n s (Ok (ns, s')) ->
  exists vs s1, evals E (received args) (entered n s) (Ok (vs, s1)) /\ ended s1 s'.
Proof. exact call_ends. Qed.
Print Assumptions c24_call.

Theorem c24_for : forall E, permuting E -> forall args n s ns s',
  is_call (b "for") args n -> eval E n s (Ok (ns, s')) ->
  exists p i items st ew es w body vs s1,
    positionals (received args) = p :: i :: Lst items st ew es w :: body /\
    evals E items (noted n s (entered n s)) (Ok (vs, s1)) /\ ended s1 s'.
Proof. exact for_ends. Qed.
Print Assumptions c24_for.

(** For [%match] the patterns of the clauses tried are expanded in the scope
    of the caller; if no clause matches, nothing else happens. *)
Theorem c24_match : forall E, permuting E -> forall expr clauses n s ns s',
  is_call (b "match") (expr :: clauses) n -> eval E n s (Ok (ns, s')) ->
  exists e k vs s1,
    received (expr :: clauses) = e :: clauses /\
    evals E (e :: flat_map pattern_of (firstn k clauses)) (entered n s) (Ok (vs, s1)) /\
    (s' = s1 \/ ended s1 s').
Proof. exact match_ends. Qed.
Print Assumptions c24_match.

Example c24_example : yields env1
  (b "(%define v 1) (%define (f) (%define v 2) %v) (%f) %v (%for x in (a) (%define v 3) %v) %v (%match b (x (%define v 4) %v)) %v")
  (b " 2 1 3 1 4 1").
Proof. shows. Qed.
(** The log output of the body does escape. *)
Example c24_example_log : exists ns s', expand env1 60 [] (b "(%define (f) (%log hello) x) (%f)") = Ok (ns, s') /\
  map snd (g_log (x_world s')) = [b "hello"].
Proof. apply expanded_by. vm_compute. reflexivity. Qed.

(** ** C43: expanded nodes refer to live source buffers *)

(** Which sources are freed: those read inside the body of a user macro,
    [%for], [%match] ([c24_call], [c24_for], [c24_match] with [ended_freed])
    or [%namespace], when that body ends. *)
Theorem c43_namespace : forall E, permuting E -> forall args n s ns s',
  is_call (b "namespace") args n -> eval E n s (Ok (ns, s')) ->
  forall i, In i (g_freed (x_world s')) <-> In i (g_freed (x_world s)) \/ size s <= i < size s'.
Proof. exact namespace_ends. Qed.
Print Assumptions c43_namespace.

(** The main source is never freed, and what is freed has been read. *)
Theorem c43_freed : forall E f path text ns s', expand E f path text = Ok (ns, s') ->
  Forall (fun i => 1 <= i < size s') (g_freed (x_world s')).
Proof. exact expand_freed. Qed.
Print Assumptions c43_freed.

(** If that has not happened, all positions in the expanded tree and in the
    definitions refer to buffers that still exist. *)
Theorem c43_live : forall E f path text ns s', reads_text E -> utf8 text ->
  expand E f path text = Ok (ns, s') -> g_freed (x_world s') = [] ->
  Forall (live s') (flat_map node_sites ns) /\
  (forall k m, get k (x_defs s') = Some m -> Forall (live s') (flat_map node_sites (macro_nodes m))).
Proof. exact expand_live. Qed.
Print Assumptions c43_live.

(** In particular for a program that reads no file. *)
Theorem c43_no_files : forall E f path text ns s', reads_text E -> utf8 text ->
  expand E f path text = Ok (ns, s') -> srcs s' = [(path, text)] ->
  Forall (live s') (flat_map node_sites ns).
Proof.
  intros E f path text ns s' T U H S. pose proof (expand_freed _ _ _ _ _ _ H) as F.
  apply (expand_live _ _ _ _ _ _ T U H). unfold size in F. rewrite S in F.
  destruct (g_freed (x_world s')) as [|i l]; [reflexivity|]. inversion F as [|? ? B]. cbn in B. lia.
Qed.
Print Assumptions c43_no_files.

Definition c43_env : env := env0_with [(b "./lib.sex", b "(%define x 1) (p text)")] [b "."].
Example c43_example : reads_text c43_env /\ exists ns s',
  expand c43_env 60 [] (b "(%include lib.sex) %x") = Ok (ns, s') /\
  g_freed (x_world s') = [] /\ size s' = 2 /\ map s_src (flat_map node_sites ns) = [1; 1; 1; 1; 1].
Proof.
  split.
  - intros p t H. cbn [e_read c43_env env0_with find] in H. destruct (beq p (b "./lib.sex")); [|discriminate].
    inversion H. apply is_utf8. vm_compute. reflexivity.
  - apply expanded_by. vm_compute. auto.
Qed.

(** The defect: the documented use [(%namespace ns (%include f))] returns
    nodes whose source text has been freed. *)
Theorem c43_refuted : exists E text ns s' st,
  expand E 60 [] text = Ok (ns, s') /\ In st (flat_map node_sites ns) /\ ~ live s' st.
Proof.
  exists c43_env, (b "(%namespace ns (%include lib.sex))").
  destruct (expanded_by c43_env 60 [] (b "(%namespace ns (%include lib.sex))")
    (fun ns s' => map s_src (flat_map node_sites ns) = [1; 1; 1; 1] /\ g_freed (x_world s') = [1]))
    as [ns [s' [H [S F]]]]; [vm_compute; auto|].
  destruct (flat_map node_sites ns) as [|st l] eqn:Q; [discriminate|]. exists ns, s', st.
  split; [exact H|]. rewrite Q. split; [left; reflexivity|]. intros [_ N]. apply N.
  rewrite F. left. injection S. auto.
Qed.
Print Assumptions c43_refuted.

(** ** C47: whitespace in expanded trees is blank *)

Theorem c47_expanded : forall E f path text ns s', reads_text E -> utf8 text ->
  expand E f path text = Ok (ns, s') ->
  Forall (Forall blank_char) (flat_map ws_fields ns) /\
  (forall k m, get k (x_defs s') = Some m ->
     Forall (Forall blank_char) (flat_map ws_fields (macro_nodes m))).
Proof. exact expand_whitespace. Qed.
Print Assumptions c47_expanded.

Example c47_example_expanded : exists ns s',
  expand env1 60 [] (b "(%define x a) ; <script>
 (p  %x (%string b c))") = Ok (ns, s') /\ flat_map ws_fields ns =
   [b "
 "; []; []; b "  "; b " "].
Proof. apply expanded_by. vm_compute. reflexivity. Qed.

(** ** C50: references to invocations can dangle *)

(** The defect: [register_invocation] returns a reference into a vector that
    may be reallocated while the arguments are expanded; five nested calls
    suffice. *)
Theorem c50_refuted : exists E text ns s',
  expand E 60 [] text = Ok (ns, s') /\ g_dangling (x_world s') > 0.
Proof.
  exists env1, (b "(%string (%string (%string (%string (%string a)))))"). apply expanded_by. vm_compute. lia.
Qed.
Print Assumptions c50_refuted.

(** A reference survives further registrations exactly as long as they fit
    into the buffer ... *)
Theorem c50_reallocated : forall n v, v_len v <= v_cap v ->
  v_gen (pushes n v) = v_gen v <-> n + v_len v <= v_cap v.
Proof. exact reallocated. Qed.
Print Assumptions c50_reallocated.

(** ... whose size is 4, 8, 16, ... as needed. *)
Theorem c50_capacity : forall n, exists k,
  v_cap (pushes (S n) (x_vec (initial [] []))) = 4 * 2 ^ k /\ S n <= 4 * 2 ^ k /\ (k = 0 \/ 4 * 2 ^ (k - 1) < S n).
Proof. exact capacity. Qed.
Print Assumptions c50_capacity.

(** The copy that a subcontext works on has no room left: the first
    registration in it moves the buffer. *)
Theorem c50_copy : forall s n, v_gen (pushes n (x_vec (copied s))) = v_gen (x_vec (copied s)) <-> n = 0.
Proof. exact copy_full. Qed.
Print Assumptions c50_copy.

Example c50_example : map (fun n => v_gen (pushes n (Vec 0 0 0))) [1; 4; 5; 8; 9; 17] = [1; 1; 2; 2; 3; 4].
Proof. reflexivity. Qed.

(** ** C52: errors point into a source that was read *)

(** Whatever goes wrong, the position reported lies inside the main source or
    inside a file that was read. *)
Theorem c52_error_position : forall E path text f k st, textual E -> utf8 text ->
  expand E f path text = Err (EErr k st) ->
  exists N, read_from E path text N /\ points_into N st.
Proof.
  intros E path text f k st T U H. pose proof (expand_all E path text T U f) as A. rewrite H in A. exact A.
Qed.
Print Assumptions c52_error_position.

(** The same for every position in the expanded program and in the
    definitions. *)
Theorem c52_positions : forall E path text f ns s', textual E -> utf8 text ->
  expand E f path text = Ok (ns, s') ->
  read_from E path text (srcs s') /\
  Forall (points_into (srcs s')) (flat_map node_sites ns) /\
  (forall key m, get key (x_defs s') = Some m ->
     Forall (points_into (srcs s')) (flat_map node_sites (macro_nodes m))).
Proof.
  intros E path text f ns s' T U H. pose proof (expand_all E path text T U f) as A. rewrite H in A.
  destruct A as [A [_ [B [C _]]]]. split; [exact A|]. split; [exact B|]. intros key m Q. apply (C key m Q).
Qed.
Print Assumptions c52_positions.

(** So a source line can be shown for each of them. *)
Theorem c52_line : forall N st, points_into N st ->
  exists path text line, nth_error N (s_src st) = Some (path, text) /\
    site_line_slice text st = line /\ ~ In LF line /\
    exists before after, text = before ++ line ++ after /\
      length before <= s_off st <= length before + length line.
Proof.
  intros N st [path [text [Q O]]]. destruct (c04_error_line text st O) as [be [line [af [A [B [_ [_ [C [_ D]]]]]]]]].
  exists path, text, line. split; [exact Q|]. split; [exact D|]. split; [exact B|]. exists be, af. auto.
Qed.
Print Assumptions c52_line.

Example c52_example_env : textual c43_env.
Proof. apply textual_env0. repeat constructor. apply is_utf8. vm_compute. reflexivity. Qed.
Example c52_example : exists st, expand c43_env 60 [] (b "(%include lib.sex)
  %y") = Err (EErr EUndefined st) /\ s_src st = 0 /\ s_line st = 2 /\ s_col st = 2.
Proof. apply failed_by. vm_compute. auto. Qed.

(** ** C53: all text in an expanded program is valid UTF-8 *)

Theorem c53_text : forall E path text f ns s', textual E -> utf8 text ->
  expand E f path text = Ok (ns, s') ->
  Forall utf8 (flat_map values ns) /\
  (forall key m, get key (x_defs s') = Some m -> Forall utf8 (flat_map values (macro_nodes m))).
Proof.
  intros E path text f ns s' T U H. pose proof (expand_all E path text T U f) as A. rewrite H in A.
  destruct A as [_ [A [_ [C _]]]]. split; [exact A|]. intros key m Q. apply (C key m Q).
Qed.
Print Assumptions c53_text.

Example c53_example : exists ns s',
  expand env1 60 [] (b "(%define x " ++ e_acute ++ b ") (%string %x a)") = Ok (ns, s') /\
  flat_map values ns = [e_acute ++ b " a"].
Proof. apply expanded_by. vm_compute. reflexivity. Qed.
