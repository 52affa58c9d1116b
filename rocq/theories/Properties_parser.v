(** * Theorems about the lexer and parser (C01-C10, C47 (parsing), C48)

    [unescape] is the external string-escape reader: every theorem holds for
    any such function. *)

From Coq Require Import String List Ascii Bool Arith NArith Lia.
From Verif Require Import Text Utf8 Res Lexer Ast Parser Debug Format
  Spec_grammar Spec_tree Spec_tokens Spec_print
  Proofs_text Proofs_lexer Proofs_token Proofs_parser Proofs_pos Proofs_comments Proofs_print
  Proofs_unescape Proofs_fields Proofs_utf8.
Import ListNotations.

(** ** C01: parsing always returns *)

(** On every UTF-8 source the parser returns a tree or an error, except that
    it loops forever on exactly those sources that break off in an identifier
    after a lone backslash; it never panics. *)
Theorem c01_parse_returns : forall unescape id src, utf8 src ->
  match parse unescape id src with
  | Ok _ | Err _ => True
  | Hang => Dangling unescape src
  | Panic _ | OutOfFuel => False
  end.
Proof. exact parse_returns. Qed.
Print Assumptions c01_parse_returns.

Theorem c01_hang_iff : forall unescape id src, utf8 src ->
  parse unescape id src = Hang <-> Dangling unescape src.
Proof. exact parse_hang_iff. Qed.
Print Assumptions c01_hang_iff.

(** In particular the parser returns on every source that does not end in a
    backslash. *)
Theorem c01_no_final_backslash : forall unescape id src, utf8 src ->
  (forall x, src <> x ++ [BS]) -> parse unescape id src <> Hang.
Proof.
  intros unescape id src U N H. apply parse_hang_iff in H; auto.
  destruct (proj2 (dangling_ends unescape) _ H) as [z E]. exact (N z E).
Qed.
Print Assumptions c01_no_final_backslash.

(** The defect: a lone backslash makes the parser loop. *)
Theorem c01_always_returns_refuted : exists src, utf8 src /\
  forall unescape id, parse unescape id src = Hang.
Proof.
  exists (b "(p ok\"). split; [apply is_utf8; reflexivity|]. intros. vm_compute. reflexivity.
Qed.
Print Assumptions c01_always_returns_refuted.

Example c01_example : utf8 (b "(p :class x ""hi"") ; end") /\
  exists t, parse ref_unescape 0 (b "(p :class x ""hi"") ; end") = Ok t.
Proof. split; [apply is_utf8; reflexivity|]. eexists. vm_compute. reflexivity. Qed.

(** ** C02: the parser accepts exactly the grammar *)

Theorem c02_grammar : forall unescape id src ts, utf8 src ->
  (exists ns, parse unescape id src = Ok ns /\ map strip ns = ts) <-> Program unescape src ts.
Proof. exact parse_grammar. Qed.
Print Assumptions c02_grammar.

Theorem c02_unambiguous : forall unescape src ts ts', utf8 src ->
  Program unescape src ts -> Program unescape src ts' -> ts = ts'.
Proof.
  intros unescape src ts ts' U H H'.
  apply (parse_grammar unescape 0) in H as (ns & E & <-); auto.
  apply (parse_grammar unescape 0) in H' as (ns' & E' & <-); auto. congruence.
Qed.
Print Assumptions c02_unambiguous.

(** Errors are reported exactly for the texts outside the grammar. *)
Theorem c02_errors : forall unescape id src, utf8 src ->
  (exists e, parse unescape id src = Err e) <->
  (forall ts, ~ Program unescape src ts) /\ ~ Dangling unescape src.
Proof.
  intros unescape id src U. split.
  - intros [e E]. split.
    + intros ts P. apply (parse_grammar unescape id) in P as (ns & E' & _); auto. congruence.
    + intros D. apply (parse_hang_iff unescape id) in D; auto. congruence.
  - intros [NP ND]. pose proof (parse_returns unescape id src U) as R.
    destruct (parse unescape id src) as [ns|e| | |] eqn:E; try contradiction; eauto.
    exfalso. apply (NP (map strip ns)). apply (parse_grammar unescape id); eauto.
Qed.
Print Assumptions c02_errors.

Example c02_example :
  exists ns, parse ref_unescape 0 (b "(a :k ""x"") 12 ; c") = Ok ns /\
    map strip ns =
      [ SList [] [SSym [] (b "a"); SAttr (b " ") (b "k") (SStr (b " ") (b "x"))] [];
        SNum (b " ") (b "12") ].
Proof. eexists. split; (vm_compute; reflexivity). Qed.
Example c02_example_error :
  exists e, parse ref_unescape 0 (b "(a (b c)") = Err e.
Proof. eexists. vm_compute. reflexivity. Qed.

(** ** C03: token spans tile the source *)

Theorem c03_tiling : forall id src toks s, utf8 src -> Reads id (lex_new src) toks s ->
  Tiled src 0 toks (l_off s) /\
  (forall s', eof s = Ok (true, s') -> Trailing (skipn (l_off s) src)).
Proof.
  intros id src toks s U R. destruct (reads_tiled id src toks _ _ (at_new _ U) R) as [T A].
  split; [exact T|]. intros s' E.
  destruct (eof_spec s) as (x & E' & I). rewrite E' in E. inversion E; subst.
  destruct A as (pre & ES & O & _). rewrite ES, O, skipn_pre by reflexivity. apply I. reflexivity.
Qed.
Print Assumptions c03_tiling.

Example c03_example : exists toks s, Reads 0 (lex_new (b "(x ; c
 ""y"")")) toks s /\ length toks = 4.
Proof.
  do 2 eexists. split; [|shelve].
  do 4 (eapply reads_cons; [vm_compute; reflexivity|]). apply reads_nil.
  Unshelve. reflexivity.
Qed.

(** ** C04: source positions *)

(** Every position in a parse tree or parse error lies inside the source, on
    character boundaries, and its column is exact. *)
Theorem c04_positions : forall unescape id src, utf8 src ->
  match parse unescape id src with
  | Ok ns => Forall (fun st => site_ok src st /\ s_src st = id) (flat_map node_sites ns)
  | Err (EErr _ st) => site_ok src st /\ s_src st = id
  | _ => True
  end.
Proof. exact parse_sites. Qed.
Print Assumptions c04_positions.

(** The line printed below an error message is the whole source line that
    contains the position. *)
Theorem c04_error_line : forall src st, site_ok src st ->
  exists before line after, src = before ++ line ++ after /\ ~ In LF line /\
    (before = [] \/ exists x, before = x ++ [LF]) /\ (after = [] \/ exists x, after = LF :: x) /\
    length before <= s_off st <= length before + length line /\
    s_col st = s_off st - length before /\
    site_line_slice src st = line.
Proof. exact site_line. Qed.
Print Assumptions c04_error_line.

(** The exact line number reported for every token. *)
Theorem c04_line_numbers : forall id src before tok after s, utf8 src ->
  Reads id (lex_new src) (before ++ tok :: after) s ->
  s_line (t_site tok) = reported_line src before tok.
Proof.
  intros id src before tok after s U R.
  destruct (reads_lines id src _ _ _ (at_new _ U) R 0 eq_refl) as [_ H].
  rewrite (H before tok after eq_refl). lia.
Qed.
Print Assumptions c04_line_numbers.

(** So it is right as long as no token so far contains a newline. *)
Theorem c04_line_right : forall id src before tok after s, utf8 src ->
  Reads id (lex_new src) (before ++ tok :: after) s ->
  (forall t, In t (before ++ [tok]) -> ~ In LF (covered src (t_site t))) ->
  s_line (t_site tok) = 1 + newlines (firstn (s_off (t_site tok)) src).
Proof.
  intros id src before tok after s U R N.
  rewrite (c04_line_numbers id src before tok after s U R). unfold reported_line.
  assert (Z : forall x, ~ In LF x -> newlines x = 0).
  { intros x H. unfold newlines. apply count_occ_not_In. exact H. }
  assert (inner_newlines src before = 0) as ->.
  { unfold inner_newlines. clear R. induction before as [|t before IH]; auto. simpl.
    rewrite Z; [|apply N; left; auto]. apply IH. intros x Hx. apply N. right. auto. }
  rewrite (Z (covered src (t_site tok))); [|apply N, in_or_app; right; left; auto].
  destruct (t_kind tok); lia.
Qed.
Print Assumptions c04_line_right.

(** The defect: newlines inside strings are counted twice. *)
Theorem c04_line_right_refuted : exists src before tok after s, utf8 src /\
  Reads 0 (lex_new src) (before ++ tok :: after) s /\
  s_line (t_site tok) <> 1 + newlines (firstn (s_off (t_site tok)) src).
Proof.
  exists (b """a
b"" c"), [Token KString (b "a
b") [] (Site 0 1 0 0 5)], (Token KSymbol (b "c") (b " ") (Site 0 3 6 3 1)), [], (Lex 3 7 4 []).
  split; [apply is_utf8; reflexivity|]. split.
  - do 2 (eapply reads_cons; [vm_compute; reflexivity|]). apply reads_nil.
  - vm_compute. discriminate.
Qed.
Print Assumptions c04_line_right_refuted.

(** ** C05: peeking and end-of-file tests *)

(** [peek] answers what [consume] would answer and leaves the lexer as it
    was. *)
Theorem c05_peek : forall id s,
  match consume id s with
  | Ok (tok, _) => peek id s = Ok (tok, s)
  | Err e => peek id s = Err e
  | Panic p => peek id s = Panic p
  | Hang => peek id s = Hang
  | OutOfFuel => peek id s = OutOfFuel
  end.
Proof. intros id s. rewrite peek_eq. destruct (consume id s) as [[t s']| | | |]; reflexivity. Qed.
Print Assumptions c05_peek.

Theorem c05_eof : forall s, exists x, eof s = Ok (x, s) /\ (x = true <-> Trailing (l_rest s)).
Proof. exact eof_spec. Qed.
Print Assumptions c05_eof.

Example c05_example :
  (exists s', consume 0 (lex_new (b " abc def")) = Ok (Token KSymbol (b "abc") (b " ") (Site 0 1 1 1 3), s')) /\
  eof (lex_new (b "  ; c")) = Ok (true, lex_new (b "  ; c")) /\
  eof (lex_new (b "  ; c
 x")) = Ok (false, lex_new (b "  ; c
 x")).
Proof. split; [|split]; [eexists|..]; vm_compute; reflexivity. Qed.

(** ** C06: comments are invisible *)

(** Two sources with the same tokens parse to the same structure. *)
Theorem c06_same_tokens : forall unescape id1 id2 src1 src2 ts t1,
  utf8 src1 -> utf8 src2 -> Tokens src1 ts -> Tokens src2 ts ->
  parse unescape id1 src1 = Ok t1 ->
  exists t2, parse unescape id2 src2 = Ok t2 /\ map shape t2 = map shape t1.
Proof. exact same_tokens_same_shape. Qed.
Print Assumptions c06_same_tokens.

(** Replacing a run of whitespace and comments after any number of tokens by
    another run (both starting with a whitespace character). *)
Theorem c06_replace_blank : forall unescape id1 id2 pre bl w bl' w' post toks t1,
  utf8 (pre ++ bl ++ post) -> utf8 (pre ++ bl' ++ post) ->
  TokenPrefix (pre ++ bl ++ post) toks (bl ++ post) ->
  Blank bl w -> Blank bl' w' ->
  (exists c r, bl = c :: r /\ blank_char c) -> (exists c r, bl' = c :: r /\ blank_char c) ->
  parse unescape id1 (pre ++ bl ++ post) = Ok t1 ->
  exists t2, parse unescape id2 (pre ++ bl' ++ post) = Ok t2 /\ map shape t2 = map shape t1.
Proof. exact replace_blank. Qed.
Print Assumptions c06_replace_blank.

(** The whitespace kept before a token: what follows the last comment. *)
Theorem c06_leading_whitespace : forall id src toks s, utf8 src ->
  Reads id (lex_new src) toks s ->
  Forall (fun t => exists p, p <= s_off (t_site t) /\
            Blank (slice p (s_off (t_site t)) src) (t_ws t)) toks.
Proof.
  intros id src toks s U R. destruct (reads_tiled id src toks _ _ (at_new _ U) R) as [T _].
  clear R. generalize dependent (l_off s). generalize (l_off (lex_new src)).
  induction toks as [|t toks IH]; intros p q T; constructor; inversion T; subst.
  - exists p. auto.
  - eapply IH; eauto.
Qed.
Print Assumptions c06_leading_whitespace.

Example c06_example :
  exists t1 t2, parse ref_unescape 0 (b "(a b) c") = Ok t1 /\
    parse ref_unescape 1 (b "; x
 (a ; (hidden ""
 b
 )c ;") = Ok t2 /\ map shape t2 = map shape t1.
Proof. do 2 eexists. split; [|split]; vm_compute; reflexivity. Qed.
(** [;] directly after an identifier does not start a comment. *)
Example c06_semicolon_in_identifier :
  exists t, parse ref_unescape 0 (b "a;b") = Ok t /\ map shape t = [XSym (b "a;b")].
Proof. eexists. split; (vm_compute; reflexivity). Qed.

(** ** C07: escapes *)

(** No symbol or number of a parsed tree contains a backslash. *)
Theorem c07_no_backslash : forall unescape id src ns, utf8 src -> parse unescape id src = Ok ns ->
  Forall (fun v => ~ In BS v) (flat_map names ns).
Proof. exact parse_no_bs. Qed.
Print Assumptions c07_no_backslash.

(** Every other non-empty text can be written as a symbol: escape every ASCII
    character with a backslash. *)
Theorem c07_spell_any_symbol : forall unescape id v, utf8 v -> v <> [] -> ~ In BS v ->
  exists n, parse unescape id (spell v) = Ok [n] /\ strip n = SSym [] v.
Proof. exact spell_parse. Qed.
Print Assumptions c07_spell_any_symbol.

(** An identifier is made of characters that do not delimit it and of
    backslashes each with the character after it, whatever that is; the value
    of the symbol, or number, is its text without the backslashes. *)
Theorem c07_identifier : forall unescape id c t, utf8 (c :: t) -> Ident (c :: t) ->
  (symbol_start c -> exists n, parse unescape id (c :: t) = Ok [n] /\ strip n = SSym [] (unbackslash (c :: t))) /\
  (number_start c -> exists n, parse unescape id (c :: t) = Ok [n] /\ strip n = SNum [] (unbackslash (c :: t))).
Proof.
  intros unescape id c t U I.
  assert (P : forall e, Expr unescape (c :: t) e [] -> exists n, parse unescape id (c :: t) = Ok [n] /\ strip n = e).
  { intros e X. assert (P : Program unescape (c :: t) [e]).
    { apply (p_cons unescape _ _ []); [exact X|]. constructor. apply (trail_blank [] []). constructor. constructor. }
    apply (parse_grammar unescape id) in P as (ns & P & S); [|exact U]. destruct ns as [|n [|]]; inversion S. eauto. }
  assert (B : Blank [] []) by (constructor; constructor).
  split; intros S; apply P; rewrite <- (app_nil_r (c :: t)) at 1.
  - exact (e_sym unescape [] [] c t [] B S I Logic.I).
  - exact (e_num unescape [] [] c t [] B S I Logic.I).
Qed.
Print Assumptions c07_identifier.

(** A string ends at its first quote without a backslash: any body made of
    other characters and of backslash pairs is read as one string. *)
Theorem c07_string_body : forall unescape id t v, utf8 t -> StrBody t -> unescape t = Some v ->
  exists n, parse unescape id (DQ :: t ++ [DQ]) = Ok [n] /\ strip n = SStr [] v.
Proof.
  intros unescape id t v U SB E.
  assert (P : Program unescape (DQ :: t ++ [DQ]) [SStr [] v]).
  { apply (p_cons unescape _ _ []).
    - apply (e_str unescape [] [] t v []); auto.
      + constructor. constructor.
      + intros [_ [r X]]. discriminate.
    - constructor. apply (trail_blank [] []). constructor. constructor. }
  apply (parse_grammar unescape id) in P as (ns & P & S).
  - destruct ns as [|n [|]]; inversion S. eauto.
  - apply utf8_ascii_cons; [vm_compute; lia|]. apply utf8_app2; auto.
    apply utf8_ascii_cons; [vm_compute; lia|constructor].
Qed.
Print Assumptions c07_string_body.

Example c07_example :
  spell (b "a (b)") = b "\a\ \(\b\)" /\
  (exists t, parse ref_unescape 0 (b "a\(b\ c \\d ""q\""r""") = Ok t /\
     map shape t = [XSym (b "a(b c"); XSym (b "d"); XStr (b "q""r")]).
Proof. split; [reflexivity|]. eexists. split; (vm_compute; reflexivity). Qed.

(** ** C08: printing a parsed tree reproduces the source *)

Theorem c08_print_parsed : forall printable unescape id src ns, utf8 src ->
  Forall (fun c => c <> ";"%char /\ c <> DQ /\ c <> BS) src ->
  parse unescape id src = Ok ns ->
  exists tail, Forall blank_char tail /\ src = flat_map (display_node printable) ns ++ tail.
Proof. exact parse_display. Qed.
Print Assumptions c08_print_parsed.

Example c08_example : exists ns,
  parse ref_unescape 0 (b "(p  :a (b 1 ) c)	d ") = Ok ns /\
  flat_map (display_node (fun _ => true)) ns = b "(p  :a (b 1 ) c)	d".
Proof. eexists. split; (vm_compute; reflexivity). Qed.

(** ** C09: printed S-expressions parse back *)

Fixpoint all_readable (t : list node) : Prop :=
  match t with [] => True | n :: t' => readable n /\ all_readable t' end.

(** [reread] is the same tree with raw content turned into uses of [%raw]. *)
Theorem c09_roundtrip : forall printable unescape id t,
  (forall v, utf8 v -> unescape (debug_body printable v) = Some v) ->
  all_readable t -> spaced t ->
  exists t', parse unescape id (sexp_gen printable t) = Ok t' /\ map strip t' = map reread t.
Proof. intros printable unescape id t H. exact (sexp_parse printable unescape H id t). Qed.
Print Assumptions c09_roundtrip.

Theorem c09_roundtrip_no_raw : forall printable unescape id t,
  (forall v, utf8 v -> unescape (debug_body printable v) = Some v) ->
  all_readable t -> spaced t -> Forall no_raw t ->
  exists t', parse unescape id (sexp_gen printable t) = Ok t' /\
             map strip t' = map strip t /\ map shape t' = map shape t.
Proof.
  intros printable unescape id t H R S N.
  destruct (sexp_parse printable unescape H id t R S) as (t' & E & M).
  assert (M' : map strip t' = map strip t).
  { rewrite M. clear - N. induction N; simpl; auto. rewrite reread_no_raw by auto. congruence. }
  exists t'. split; auto. split; auto. rewrite <- !sshape_strips. congruence.
Qed.
Print Assumptions c09_roundtrip_no_raw.

(** Readers as required exist, whatever characters count as printable. *)
Theorem c09_reader_exists : forall printable v, utf8 v ->
  ref_unescape (debug_body printable v) = Some v.
Proof. exact ref_unescape_debug. Qed.
Print Assumptions c09_reader_exists.

(** Symbols that need escapes do not survive printing. *)
Theorem c09_escaped_symbols_refuted : exists src t t',
  parse ref_unescape 0 src = Ok t /\
  parse ref_unescape 0 (sexp_gen (fun _ => true) t) = Ok t' /\
  map shape t' <> map shape t.
Proof.
  exists (b "a\ b"). do 2 eexists. split; [|split]; [vm_compute; reflexivity..|].
  vm_compute. discriminate.
Qed.
Print Assumptions c09_escaped_symbols_refuted.

Example c09_example : exists t t',
  parse ref_unescape 0 (b "(p :k ""a\""\n\\"" (x) 1)") = Ok t /\
  all_readable t /\ spaced t /\
  parse ref_unescape 1 (sexp_gen (fun _ => true) t) = Ok t' /\ map strip t' = map strip t.
Proof.
  do 2 eexists. split; [vm_compute; reflexivity|].
  split; [split; [apply readableb_ok; vm_compute; reflexivity|exact I]|].
  split; [exact I|]. split; (vm_compute; reflexivity).
Qed.

(** ** C10: node equality and hashing *)

Theorem c10_equality : forall x y, node_eq x y = true <-> shape x = shape y.
Proof. exact node_eq_iff. Qed.
Print Assumptions c10_equality.

Theorem c10_equivalence :
  (forall x, node_eq x x = true) /\
  (forall x y, node_eq x y = true -> node_eq y x = true) /\
  (forall x y z, node_eq x y = true -> node_eq y z = true -> node_eq x z = true).
Proof.
  repeat split; intros; rewrite ?node_eq_iff in *; congruence.
Qed.
Print Assumptions c10_equivalence.

Theorem c10_hash : forall x y, node_eq x y = true -> node_hash x = node_hash y.
Proof. intros x y H. apply node_hash_shape, node_eq_iff, H. Qed.
Print Assumptions c10_hash.

Example c10_example : exists x y, parse ref_unescape 0 (b "(a b)") = Ok [x] /\
  parse ref_unescape 3 (b "
( a  b )") = Ok [y] /\ x <> y /\ node_eq x y = true.
Proof.
  do 2 eexists. split; [vm_compute; reflexivity|]. split; [vm_compute; reflexivity|].
  split; [discriminate|vm_compute; reflexivity].
Qed.

(** ** C47 (parsing): whitespace fields are blank *)

Theorem c47_parse_whitespace : forall unescape id src ns, utf8 src ->
  parse unescape id src = Ok ns -> Forall (Forall blank_char) (flat_map ws_fields ns).
Proof. exact parse_ws. Qed.
Print Assumptions c47_parse_whitespace.

Example c47_example : exists ns,
  parse ref_unescape 0 (b "(p :k v) ; <script>
 x") = Ok ns /\ flat_map ws_fields ns = [[]; []; []; b " "; b " "; b "
 "].
Proof. eexists. split; (vm_compute; reflexivity). Qed.

(** ** C48: all text stays valid UTF-8 *)

(** What valid means: a sequence of encoded characters. *)
Theorem c48_valid : forall s, utf8 s <-> exists l, Forall scalar_value l /\ s = flat_map encode l.
Proof. exact chars_iff. Qed.
Print Assumptions c48_valid.
Example c48_surrogate : ~ utf8 (encode 55296%N) /\ utf8 (encode 55295%N ++ encode 57344%N ++ encode 128512%N).
Proof.
  split.
  - intros U. inversion U as [|c s H V E].
    vm_compute in E. destruct c as [|c1 [|c2 [|c3 [|c4 c]]]]; try discriminate H; try discriminate E;
      injection E as; subst; discriminate H.
  - apply chars_iff. exists [55295; 57344; 128512]%N. split; [|reflexivity]. repeat constructor; unfold scalar_value; lia.
Qed.

Theorem c48_tokens : forall id src toks s, utf8 src -> Reads id (lex_new src) toks s ->
  Forall (fun t => utf8 (t_value t) /\ Forall blank_char (t_ws t) /\
                   utf8 (firstn (s_off (t_site t)) src) /\ utf8 (covered src (t_site t))) toks.
Proof.
  intros id src toks s U R.
  pose proof (reads_fields id src _ _ _ (at_new _ U) R) as F.
  pose proof (reads_sites id src _ _ _ (at_new _ U) R) as G.
  clear R. induction F as [|t toks [W V] F IH]; constructor; inversion G; subst; auto.
  destruct H1 as [(_ & A & B & _) _]. auto.
Qed.
Print Assumptions c48_tokens.

Theorem c48_values : forall unescape id src ns,
  (forall t v, utf8 t -> unescape t = Some v -> utf8 v) ->
  utf8 src -> parse unescape id src = Ok ns -> Forall utf8 (flat_map values ns).
Proof. exact parse_utf8. Qed.
Print Assumptions c48_values.

Definition e_acute : bytes := map ascii_of_nat [195; 169].
Example c48_example : utf8 (b "a\" ++ e_acute ++ b ")") /\
  exists t s, Reads 0 (lex_new (b "a\" ++ e_acute ++ b ")")) [t] s /\ t_value t = b "a\" ++ e_acute.
Proof.
  split.
  - apply utf8_app2; [apply is_utf8; reflexivity|]. apply (utf8_app e_acute); [reflexivity|].
    apply is_utf8; reflexivity.
  - do 2 eexists. split; [eapply reads_cons; [vm_compute; reflexivity|apply reads_nil]|reflexivity].
Qed.
