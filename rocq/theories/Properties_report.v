(** * Properties of error reports (C55) *)

From Coq Require Import String List Ascii Bool Arith Lia.
From Verif Require Import Text Utf8 Res Numbers Ast Env Scope State Expander Parser Lexer Format Cli Report
  Spec_grammar Spec_tree Spec_tokens Spec_report Spec_keep Spec_expand Spec_builtin
  Proofs_text Proofs_lexer Proofs_token Proofs_parser Proofs_pos Proofs_run Proofs_eval Conformance Runs
  Proofs_report Proofs_genfail Properties_parser Properties_state.
From Verif Require Proofs_kept Proofs_syntax.
Import ListNotations.

(** ** C55: error reports show the line an error is on *)

(** The report about any position inside a source: its line, the marks below
    it, and the headline.  The only obstacle is a width that the formatting
    machinery does not accept. *)
Theorem c55_report : forall D src st path msg k, utf8 src -> site_ok src st ->
  exists left right, line_at src (s_off st) left right /\
    report D path src msg (EErr k st) =
      if fitting D (s_line st) left (covered src st)
      then Ok (full_report D k path msg (s_line st) left right (covered src st)) else Panic PExplicit.
Proof. exact report_ok. Qed.
Print Assumptions c55_report.

(** The marks start in the column of the display where the text starts... *)
Theorem c55_aligned : forall D n left, ascii_width D ->
  d_width D (before_mark D n left) = d_width D (gutter n ++ b " " ++ left).
Proof. exact mark_aligned. Qed.
Print Assumptions c55_aligned.

(** ... and, if the text is on one line, they are below precisely that text. *)
Theorem c55_marked : forall src st left right, site_ok src st ->
  line_at src (s_off st) left right -> ~ In LF (covered src st) ->
  exists rest, right = covered src st ++ rest.
Proof. exact mark_inside. Qed.
Print Assumptions c55_marked.

(** This applies to every error of the parser and of the expander (for a file
    read by a context that has ended, provided its text has not been freed
    before the report is made: see C43 and the head of [Report])... *)
Theorem c55_expansion : forall D E path text f k st msg, textual E -> utf8 text ->
  expand E f path text = Err (EErr k st) ->
  exists N file src left right, read_from E path text N /\ nth_error N (s_src st) = Some (file, src) /\
    line_at src (s_off st) left right /\
    report D file src msg (EErr k st) =
      if fitting D (s_line st) left (covered src st)
      then Ok (full_report D k file msg (s_line st) left right (covered src st)) else Panic PExplicit.
Proof.
  intros D E path text f k st msg T U H.
  destruct (c52_error_position E path text f k st T U H) as (N & R & file & src & Q & O).
  assert (US : utf8 src).
  { destruct R as (l & -> & F). destruct (s_src st) as [|i]; [injection Q as <- <-; exact U|].
    cbn in Q. apply nth_error_In in Q. rewrite List.Forall_forall in F. apply F in Q.
    exact (t_read E T _ _ Q). }
  destruct (report_ok D src st file msg k US O) as (left & right & L & P).
  exists N, file, src, left, right. auto.
Qed.
Print Assumptions c55_expansion.

(** ... in particular, if no other file can be read, it is about the main one... *)
Theorem c55_main : forall D E path text f k st msg, textual E -> utf8 text ->
  (forall file, e_read E file = None) -> expand E f path text = Err (EErr k st) ->
  s_src st = 0 /\ exists left right, line_at text (s_off st) left right /\
    report D path text msg (EErr k st) =
      if fitting D (s_line st) left (covered text st)
      then Ok (full_report D k path msg (s_line st) left right (covered text st)) else Panic PExplicit.
Proof.
  intros D E path text f k st msg T U NR H.
  destruct (c55_expansion D E path text f k st msg T U H) as (N & file & src & left & right & (l & -> & F) & Q & L & R).
  destruct (s_src st) as [|i].
  - injection Q as <- <-. split; [reflexivity|]. exists left, right. auto.
  - cbn in Q. apply nth_error_In in Q. rewrite List.Forall_forall in F. apply F in Q. rewrite NR in Q. discriminate.
Qed.
Print Assumptions c55_main.

(** ... and to every error of the formatters, which names the language that
    could not be written. *)
Theorem c55_generation : forall D E path text f t s target doc printable k st msg, textual E -> utf8 text ->
  expand E f path text = Ok (t, s) -> formatted printable target doc t s = inl (Err (EErr k st)) ->
  (exists language kinds, occurs_in language target /\ In (language, kinds) announced /\ In k kinds /\
     origin_of k = OGenerator language) /\
  exists file src left right, nth_error (srcs s) (s_src st) = Some (file, src) /\
    line_at src (s_off st) left right /\
    report D file src msg (EErr k st) =
      if fitting D (s_line st) left (covered src st)
      then Ok (full_report D k file msg (s_line st) left right (covered src st)) else Panic PExplicit.
Proof.
  intros D E path text f t s target doc printable k st msg T U H F.
  destruct (c52_positions E path text f t s T U H) as (R & S & _).
  assert (G : points_into (srcs s) st /\ exists language kinds, occurs_in language target /\
    In (language, kinds) announced /\ In k kinds /\ origin_of k = OGenerator language).
  { unfold formatted in F. set (so := fun i => snd (nth i (g_sources (x_world s)) ([], []))) in F.
    assert (X : forall L (r : res bytes), (forall m, In m L -> occurs_in m target) -> fails_in L (points_into (srcs s)) r ->
      inl r = @inl _ nat (Err (EErr k st)) ->
      points_into (srcs s) st /\ exists language kinds, occurs_in language target /\
        In (language, kinds) announced /\ In k kinds /\ origin_of k = OGenerator language).
    { intros L r IL FI EQ. injection EQ as ->. destruct FI as (P & m & ks & M & Q). split; [exact P|].
      exists m, ks. split; [apply IL, M|exact Q]. }
    destruct (beq target (b "text")); [discriminate|]. destruct (beq target (b "sexp")); [discriminate|].
    destruct (beq target (b "html")) eqn:Thtml.
    { apply beq_eq in Thtml. eapply (X html_names); [| |exact F]; [rewrite Thtml; intros m M; apply oi_html; exact M|]. destruct doc; [apply fi_html_document|apply fi_html_gen]; exact S. }
    destruct (beq target (b "xml")) eqn:Txml.
    { apply beq_eq in Txml. eapply (X xml_names); [| |exact F]; [rewrite Txml; intros m [<-|[]]; apply oi_xml|]. destruct doc; [apply fi_xml_document|apply fi_xml_gen]; exact S. }
    destruct (beq target (b "css")) eqn:Tcss.
    { apply beq_eq in Tcss. eapply (X css_names); [| |exact F]; [rewrite Tcss; intros m M; apply oi_css; exact M|]. destruct doc; [apply fi_css_document|apply fi_css_gen]; exact S. }
    destruct (existsb _ _); discriminate. }
  destruct G as [(file & src & Q & O) G]. split; [exact G|].
  assert (US : utf8 src).
  { destruct R as (l & EN & FA). rewrite EN in Q. destruct (s_src st) as [|i]; [injection Q as <- <-; exact U|].
    cbn in Q. apply nth_error_In in Q. rewrite List.Forall_forall in FA. apply FA in Q.
    exact (t_read E T _ _ Q). }
  destruct (report_ok D src st file msg k US O) as (left & right & L & P).
  exists file, src, left, right. auto.
Qed.
Print Assumptions c55_generation.

(** The headline tells the stage that failed.  Before expansion: the lexer for
    strings (unclosed, or with a bad escape), else the parser. *)
Theorem c55_stage_syntax : forall unescape id src k st, utf8 src ->
  parse unescape id src = Err (EErr k st) ->
  (nth_error src (s_off st) = Some DQ -> origin_of k = OLexer) /\
  (nth_error src (s_off st) <> Some DQ -> origin_of k = OParser).
Proof.
  intros u id src k st U H.
  destruct (proj1 (Proofs_syntax.parse_error_iff u id src k (s_off st) (s_span st) U)) as [L B]; [eauto|].
  destruct (Proofs_syntax.bad_program_suffix _ _ _ _ _ B) as [_ (c & r & E & C)].
  assert (N : nth_error src (s_off st) = Some c).
  { rewrite <- (firstn_skipn (s_off st) src), nth_error_app2 by (rewrite firstn_length; lia).
    rewrite firstn_length, Nat.min_l, Nat.sub_diag, E by lia. reflexivity. }
  rewrite N. split; intros Q; destruct k; cbn in C; try contradiction; subst c; first [reflexivity|discriminate Q|destruct (Q eq_refl)].
Qed.
Print Assumptions c55_stage_syntax.

(** After the program has been parsed: the expander. *)
Theorem c55_stage_expansion : forall E path text tree f k st,
  parse (e_unescape E) 0 text = Ok tree -> expand E f path text = Err (EErr k st) ->
  origin_of k = OExpander.
Proof.
  intros E path text tree f k st P H. pose proof (Proofs_kept.expand_stage E f path text tree k st P H) as X.
  destruct k; try discriminate X; reflexivity.
Qed.
Print Assumptions c55_stage_expansion.

Definition reported (D : screen) (path src msg : bytes) (r : out) : option (res bytes) :=
  match r with Err e => Some (report D path src msg e) | _ => None end.

Example c55_example : let src := b "(p a)
  (b %nope c)" in
  reported (plain 200) (b "f.sex") src (b "What?") (expand env1 60 (b "f.sex") src) = Some (Ok (b "  2 |   (b %nope c)
    | ~~~~~^^^^^
[**] Error Expanding Macro (f.sex:2:6): What?")).
Proof. vm_compute. reflexivity. Qed.
Example c55_example_parse : let src := b "(a b) )" in
  reported (plain 200) (b "f.sex") src (b "What?") (expand env1 60 (b "f.sex") src) = Some (Ok (b "  1 | (a b) )
    | ~~~~~~^
[**] Parse Error (f.sex:1:7): What?")).
Proof. vm_compute. reflexivity. Qed.
Example c55_example_generation : exists t s e, let src := b "(p (%list))" in
  expand env1 60 (b "f.sex") src = Ok (t, s) /\
  formatted (fun _ => true) (b "html") false t s = inl (Err e) /\
  report (plain 200) (b "f.sex") src (b "What?") e = Ok (b "  1 | (p (%list))
    | ~~~^
[**] Error Generating HTML (f.sex:1:4): What?").
Proof. do 3 eexists. cbv zeta. split; [vm_compute; reflexivity|]. split; vm_compute; reflexivity. Qed.
Example c55_example_width : ascii_width (plain 200).
Proof. split; intros; [reflexivity|apply app_length]. Qed.

(** Of a text of several lines only the first is shown, but the marks are as
    many as if all of it were on that line. *)
Theorem c55_marks_on_line_refuted : exists src k st left right,
  expand env1 60 [] src = Err (EErr k st) /\ line_at src (s_off st) left right /\
  length (left ++ right) < length left + d_width (plain 200) (covered src st) /\
  report (plain 200) (b "f.sex") src (b "?") (EErr k st) = Ok (b "  1 | (%include ""a
    | ~~~~~~~~~~^^^^^
[**] Error Expanding Macro (f.sex:1:11): ?").
Proof.
  exists (b "(%include ""a
b"")"), EInclude, (Site 0 1 10 10 5), (b "(%include "), (b """a").
  split; [vm_compute; reflexivity|]. split; [|split; vm_compute; [lia|reflexivity]].
  exists [], (LF :: b "b"")"). split; [reflexivity|]. split; [reflexivity|]. split; [|eauto].
  intros H. repeat (destruct H as [H|H]; [discriminate H|]). destruct H.
Qed.
Print Assumptions c55_marks_on_line_refuted.

(** Whatever the limit on widths, some program makes the report of its error
    panic instead of being shown: it is enough that the error is far to the
    right. *)
Theorem c55_always_shown_refuted : forall limit, exists src st,
  expand env1 60 [] src = Err (EErr EUndefined st) /\
  forall path msg, report (plain limit) path src msg (EErr EUndefined st) = Panic PExplicit.
Proof.
  intros limit. set (w := repeat " "%char (S limit)). set (src := w ++ b "%x").
  assert (BW : Forall blank_char w).
  { unfold w. generalize (S limit). intros n. induction n; constructor; [right; right; right|]; auto. }
  assert (US : utf8 src).
  { unfold src, w. generalize (S limit). intros n. induction n as [|n IH]; simpl.
    - repeat (apply utf8_ascii_cons; [vm_compute; lia|]). constructor.
    - apply utf8_ascii_cons; [vm_compute; lia|exact IH]. }
  assert (NL : ~ In LF src).
  { unfold src. intros H. apply in_app_or in H as [H|H].
    - unfold w in H. apply repeat_spec in H. discriminate H.
    - repeat (destruct H as [H|H]; [discriminate H|]). destruct H. }
  set (s1 := move 1 w (lex_new src)). set (s2 := move 2 (b "%x") s1).
  assert (E0 : l_rest (lex_new src) = w ++ b "%x") by reflexivity.
  pose proof (move_adv 1 w _ _ E0) as A1. fold s1 in A1.
  assert (E1 : l_rest s1 = b "%x" ++ []).
  { destruct A1 as (A1 & _). rewrite E0 in A1. apply app_inv_head in A1. auto. }
  pose proof (move_adv 2 (b "%x") _ _ E1) as A2. fold s2 in A2.
  assert (E2 : l_rest s2 = []).
  { destruct A2 as (A2 & _). rewrite E1 in A2. apply app_inv_head in A2. auto. }
  set (tok := Token KSymbol (b "%x") w (Site 0 (tok_line TSymbol s1 s2) (l_off s1) (l_col s1) 2)).
  assert (TK : Tok 0 (lex_new src) tok s2).
  { exists w, w, s1, (b "%x"), TSymbol, (b "%x").
    split; [constructor; exact BW|]. split; [exact A1|]. split; [exact A2|]. split; [|reflexivity].
    rewrite E2. apply tt_sym; [| |exact I].
    - repeat split; try discriminate; intros H; vm_compute in H; decompose [or] H; try discriminate; try lia.
    - repeat (apply id_plain; [repeat split; try discriminate; intros H; vm_compute in H; decompose [or] H; discriminate|]).
      constructor. }
  assert (P : parse (e_unescape env1) 0 src = Ok [Sym (tok_atom tok (b "%x"))]).
  { apply parse_iff; [exact US|]. eapply gp_cons.
    - change (b "%x") with (unbackslash (t_value tok)). apply g_sym; [exact TK|reflexivity].
    - apply gp_end. rewrite E2. apply (trail_blank [] []). constructor. constructor. }
  exists src, (t_site tok). split.
  { unfold expand. rewrite P. reflexivity. }
  intros path msg.
  pose proof (parse_sites (e_unescape env1) 0 src US) as SO. rewrite P in SO.
  inversion SO as [|? ? [O _] _]; subst.
  destruct (report_ok (plain limit) src (t_site tok) path msg EUndefined US O) as (left & right & L & R).
  assert (LL : length left = S limit).
  { rewrite (line_at_single _ _ _ _ NL L). destruct A1 as (_ & A1 & _). cbn [t_site tok s_off]. rewrite A1.
    unfold w. rewrite repeat_length. reflexivity. }
  rewrite R. unfold fitting. cbn [d_fits d_width plain].
  replace (length left <=? limit) with false by (symmetry; apply Nat.leb_gt; lia).
  rewrite andb_false_r. reflexivity.
Qed.
Print Assumptions c55_always_shown_refuted.

(** ** C64: the lines written by [%log] can always be shown *)

(** Each shows a position inside a source that was read, with its line and
    column, and its text is valid: writing it does not panic. *)
Theorem c64_log : forall D E path text f ns s st words, textual E -> utf8 text ->
  expand E f path text = Ok (ns, s) -> In (st, words) (g_log (x_world s)) ->
  utf8 words /\
  exists file src left right, nth_error (srcs s) (s_src st) = Some (file, src) /\
    line_at src (s_off st) left right /\
    log_text D file src st words = Ok (full_line D file (s_line st) left words).
Proof.
  intros D E path text f ns s st words T U H I. pose proof (Proofs_kept.expand_all E path text T U f) as A. rewrite H in A.
  destruct A as (R & _ & _ & _ & L). rewrite List.Forall_forall in L. apply L in I as [(file & src & Q & O) V].
  split; [exact V|].
  assert (US : utf8 src).
  { destruct R as (l & EN & FA). cbn [fst] in Q. rewrite EN in Q. destruct (s_src st) as [|i]; [injection Q as <- <-; exact U|].
    cbn in Q. apply nth_error_In in Q. rewrite List.Forall_forall in FA. apply FA in Q.
    exact (t_read E T _ _ Q). }
  destruct (log_ok D src st file words US O) as (left & right & P & W). exists file, src, left, right. auto.
Qed.
Print Assumptions c64_log.

(** The whole log, as it appears on standard error. *)
Definition log_lines (D : screen) (s : state) : list (res bytes) :=
  map (fun '(st, words) => let '(file, src) := nth (s_src st) (srcs s) ([], []) in log_text D file src st words)
    (g_log (x_world s)).

Example c64_example : exists ns s, let src := b "(%define (f x) (%log got %x))
  (p (%f 1)) ""a
" ++ b """  (%log done)" in
  expand env1 60 (b "f.sex") src = Ok (ns, s) /\
  log_lines (plain 200) s = [Ok (b "[#] log (f.sex:1:16): got 1" ++ [LF]); Ok (b "[#] log (f.sex:4:4): done" ++ [LF])].
Proof. do 2 eexists. cbv zeta. split; vm_compute; reflexivity. Qed.
