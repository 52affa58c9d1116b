(** * Token streams and source positions *)

From Coq Require Import List Ascii Bool Arith Lia.
From Verif Require Import Text Utf8 Res Lexer Ast Parser Spec_grammar Spec_tokens Spec_tree
  Proofs_text Proofs_lexer Proofs_token Proofs_ast Proofs_parser.
Import ListNotations.

(** The lexer has read [pre] of [src]. *)
Definition At (src : bytes) (s : lex) : Prop :=
  exists pre, src = pre ++ l_rest s /\ l_off s = length pre /\ l_col s = col_after 0 pre /\
              utf8 pre /\ utf8 (l_rest s).

Lemma at_new : forall src, utf8 src -> At src (lex_new src).
Proof. intros src U. exists []. repeat split; auto. constructor. Qed.

Lemma at_adv : forall src s k t s', At src s -> adv k t s s' -> utf8 (l_rest s') -> At src s'.
Proof.
  intros src s k t s' (pre & E & O & C & U1 & U2) (A1 & A2 & A3 & _) U3.
  rewrite A1 in U2. apply utf8_split in U2 as [Ut _]; [|apply utf8_boundary; auto].
  exists (pre ++ t). repeat split; auto.
  - rewrite E, A1, app_assoc. reflexivity.
  - rewrite A2, O, app_length. reflexivity.
  - rewrite A3, C, col_after_app. reflexivity.
  - apply utf8_app2; auto.
Qed.

Lemma slice_mid : forall (x y z : bytes) i j, i = length x -> j = length x + length y ->
  slice i j (x ++ y ++ z) = y.
Proof.
  intros x y z i j -> ->. unfold slice.
  rewrite skipn_app, skipn_all, Nat.sub_diag. simpl.
  replace (length x + length y - length x) with (length y) by lia.
  rewrite firstn_app, firstn_all, Nat.sub_diag. simpl. apply app_nil_r.
Qed.
Lemma firstn_pre : forall (x y : bytes) i, i = length x -> firstn i (x ++ y) = x.
Proof. intros x y i ->. rewrite firstn_app, firstn_all, Nat.sub_diag. simpl. apply app_nil_r. Qed.
Lemma skipn_pre : forall (x y : bytes) i, i = length x -> skipn i (x ++ y) = y.
Proof. intros x y i ->. rewrite skipn_app, skipn_all, Nat.sub_diag. reflexivity. Qed.

(** The last line of a text. *)
Lemma col_after_spec : forall pre, exists a l, pre = a ++ l /\ ~ In LF l /\
  length l = col_after 0 pre /\ (a = [] \/ exists a', a = a' ++ [LF]).
Proof.
  induction pre as [|c pre IH] using rev_ind.
  - exists [], []. repeat split; auto.
  - destruct IH as (a & l & E & N & L & H). rewrite col_after_app. unfold col_after at 1. simpl.
    destruct (ch c LF) eqn:EC.
    + apply ch_eq in EC. subst c. exists (pre ++ [LF]), []. rewrite app_nil_r. repeat split; auto. right. eauto.
    + exists a, (l ++ [c]). rewrite E, <- app_assoc. repeat split; auto.
      * rewrite in_app_iff. intros [H1|[H1|[]]]; [auto|]. apply ch_neq in EC. auto.
      * rewrite app_length. simpl. rewrite L, E. lia.
Qed.

Lemma line_start_at : forall src s, At src s -> line_start src (l_off s) (l_col s).
Proof.
  intros src s (pre & E & O & C & _ & _). destruct (col_after_spec pre) as (a & l & EP & N & L & H).
  assert (LP : length pre = length a + length l) by (rewrite EP, app_length; lia).
  unfold line_start. rewrite O, C, <- L. rewrite LP. replace (length a + length l - length l) with (length a) by lia.
  split; [lia|]. split.
  - rewrite E, EP, <- app_assoc. rewrite slice_mid with (y := l); auto.
  - destruct H as [->|[a' ->]]; [left; reflexivity|right].
    rewrite app_length. simpl. rewrite E, EP, <- !app_assoc.
    replace (length a' + 1 - 1) with (length a') by lia.
    rewrite nth_error_app2 by lia. rewrite Nat.sub_diag. reflexivity.
Qed.

Section T.
Variable id : nat.
Notation Tok := (Tok id).

Lemma tok_at : forall src s tok s2, At src s -> Tok s tok s2 ->
  exists bl txt, let st := t_site tok in
    At src s2 /\ l_off s <= s_off st /\ site_end st = l_off s2 /\ site_end st <= length src /\
    slice (l_off s) (s_off st) src = bl /\ Blank bl (t_ws tok) /\
    covered src st = txt /\ TokText txt (spec_kind (t_kind tok)) (t_value tok) (l_rest s2) /\
    l_rest s2 = skipn (site_end st) src /\
    utf8 (firstn (s_off st) src) /\ utf8 (covered src st) /\
    line_start src (s_off st) (s_col st) /\
    l_line s2 = l_line s + newlines bl + 2 * newlines txt /\
    s_line st = l_line s + newlines bl + (match t_kind tok with KString => 0 | _ => 2 * newlines txt end) /\
    firstn (s_off st) src = firstn (l_off s) src ++ bl /\
    firstn (l_off s2) src = firstn (s_off st) src ++ txt /\ s_src st = id.
Proof.
  intros src s tok s2 HA HT.
  assert (U : utf8 (l_rest s)) by (destruct HA as (? & _ & _ & _ & _ & U); exact U).
  destruct (tok_utf8 _ _ _ _ U HT) as [U2 _].
  destruct HT as (bl & w & s1 & txt & k & v & B & A1 & A2 & T & ->).
  assert (U1 : utf8 (l_rest s1)).
  { eapply utf8_blank_rest; [exact B|]. rewrite <- (proj1 A1). exact U. }
  pose proof (at_adv _ _ _ _ _ HA A1 U1) as HA1.
  pose proof (at_adv _ _ _ _ _ HA1 A2 U2) as HA2.
  pose proof (line_start_at _ _ HA1) as LS.
  destruct HA as (pre & E & O & C & UP & _).
  destruct A1 as (R1 & O1 & C1 & L1). destruct A2 as (R2 & O2 & C2 & L2).
  assert (ES : src = pre ++ bl ++ txt ++ l_rest s2) by (rewrite E, R1, R2; reflexivity).
  assert (UB : utf8 bl).
  { rewrite R1 in U. apply utf8_split in U as [UB _]; auto. apply utf8_boundary; auto. }
  assert (UT : utf8 txt).
  { rewrite R2 in U1. apply utf8_split in U1 as [UT _]; auto. apply utf8_boundary; auto. }
  assert (CV : slice (l_off s1) (l_off s1 + length txt) src = txt).
  { rewrite ES, app_assoc. apply slice_mid; rewrite ?app_length; lia. }
  assert (FB : firstn (l_off s1) src = pre ++ bl).
  { rewrite ES, app_assoc. apply firstn_pre. rewrite app_length. lia. }
  exists bl, txt. cbv beta zeta delta [site_end covered].
  cbn [t_site s_off s_span s_col s_line s_src t_kind t_ws t_value].
  split; auto. split; [lia|]. split; [lia|].
  split. { rewrite ES, !app_length. lia. }
  split. { rewrite ES. apply slice_mid; lia. }
  split; auto. split; auto.
  split. { destruct k; exact T. }
  split. { rewrite ES, 2!app_assoc. rewrite skipn_pre; auto. rewrite !app_length. lia. }
  split. { rewrite FB. apply utf8_app2; auto. }
  split. { rewrite CV. auto. }
  split; auto. split; [lia|].
  split. { destruct k; simpl; rewrite ?L2, ?L1; lia. }
  split. { rewrite FB. f_equal. rewrite ES. symmetry. apply firstn_pre. auto. }
  split; auto.
  rewrite FB, ES. rewrite 2!app_assoc. apply firstn_pre. rewrite !app_length. lia.
Qed.

Lemma reads_tok : forall s toks s', utf8 (l_rest s) -> Reads id s toks s' ->
  toks = [] /\ s' = s \/ exists tok s1 toks', toks = tok :: toks' /\ Tok s tok s1 /\ Reads id s1 toks' s'.
Proof.
  intros s toks s' U H. inversion H; subst; auto. right.
  pose proof (consume_spec id s U) as C. rewrite H0 in C. inversion C; subst. eauto 10.
Qed.

Lemma reads_tiled : forall src toks s s', At src s -> Reads id s toks s' ->
  Tiled src (l_off s) toks (l_off s') /\ At src s'.
Proof.
  intros src. induction toks as [|tok toks IH]; intros s s' HA HR.
  - inversion HR; subst. split; auto. constructor.
  - assert (U : utf8 (l_rest s)) by (destruct HA as (? & _ & _ & _ & _ & U); exact U).
    destruct (reads_tok _ _ _ U HR) as [[? _]|(tok' & s1 & toks' & E & T & R)]; [discriminate|].
    inversion E; subst tok' toks'.
    destruct (tok_at _ _ _ _ HA T) as (bl & txt & HA2 & L1 & L2 & L3 & SL & B & CV & TT & RE & UF & UC & _).
    destruct (IH _ _ HA2 R) as [TL HA3]. split; auto.
    constructor; auto.
    + rewrite SL. auto.
    + rewrite CV, <- RE. auto.
    + rewrite L2. auto.
Qed.

Lemma reads_sites : forall src toks s s', At src s -> Reads id s toks s' ->
  Forall (fun t => site_ok src (t_site t) /\ s_src (t_site t) = id) toks.
Proof.
  intros src. induction toks as [|tok toks IH]; intros s s' HA HR; constructor.
  - assert (U : utf8 (l_rest s)) by (destruct HA as (? & _ & _ & _ & _ & U); exact U).
    destruct (reads_tok _ _ _ U HR) as [[? _]|(tok' & s1 & toks' & E & T & R)]; [discriminate|].
    inversion E; subst tok' toks'.
    destruct (tok_at _ _ _ _ HA T) as (bl & txt & HA2 & L1 & L2 & L3 & SL & B & CV & TT & RE & UF & UC & LS & X).
    split; [|tauto]. split; auto.
  - assert (U : utf8 (l_rest s)) by (destruct HA as (? & _ & _ & _ & _ & U); exact U).
    destruct (reads_tok _ _ _ U HR) as [[? _]|(tok' & s1 & toks' & E & T & R)]; [discriminate|].
    inversion E; subst tok' toks'.
    destruct (tok_at _ _ _ _ HA T) as (bl & txt & HA2 & _). eauto.
Qed.

Lemma reads_lines : forall src toks s s', At src s -> Reads id s toks s' ->
  forall d, l_line s = 1 + newlines (firstn (l_off s) src) + d ->
  l_line s' = 1 + newlines (firstn (l_off s') src) + d + inner_newlines src toks /\
  forall before tok after, toks = before ++ tok :: after ->
    s_line (t_site tok) = reported_line src before tok + d.
Proof.
  intros src. induction toks as [|tok toks IH]; intros s s' HA HR d HL.
  - inversion HR; subst. split; [unfold inner_newlines; simpl; lia|].
    intros [|] ? ? ?; discriminate.
  - assert (U : utf8 (l_rest s)) by (destruct HA as (? & _ & _ & _ & _ & U); exact U).
    destruct (reads_tok _ _ _ U HR) as [[? _]|(tok' & s1 & toks' & E & T & R)]; [discriminate|].
    inversion E; subst tok' toks'.
    destruct (tok_at _ _ _ _ HA T) as (bl & txt & HA2 & L1 & L2 & L3 & SL & B & CV & TT & RE & UF & UC & LS & LN & LT & F1 & F2 & _).
    assert (HL2 : l_line s1 = 1 + newlines (firstn (l_off s1) src) + (d + newlines txt)).
    { rewrite LN, HL, F2, F1, !newlines_app. lia. }
    destruct (IH _ _ HA2 R _ HL2) as [I1 I2].
    split.
    + rewrite I1. unfold inner_newlines. simpl. rewrite CV. lia.
    + intros before t after EQ. destruct before as [|t0 before]; inversion EQ; subst.
      * rewrite LT, HL. unfold reported_line, inner_newlines. rewrite F1, newlines_app. simpl.
        unfold covered in *. destruct (t_kind t); lia.
      * rewrite (I2 before t after eq_refl). unfold reported_line, inner_newlines. simpl. lia.
Qed.

(** Rendering a site never slices out of range. *)
Lemma scan_line_bounds : forall rest i, i <= scan_line i rest <= i + length rest.
Proof.
  induction rest as [|c rest IH]; intros i; simpl; [lia|].
  destruct (ch c LF); [lia|]. specialize (IH (S i)). lia.
Qed.

Lemma scan_line_spec : forall rest i, ~ In LF (firstn (scan_line i rest - i) rest) /\
  (scan_line i rest = i + length rest \/ nth_error rest (scan_line i rest - i) = Some LF).
Proof.
  induction rest as [|c rest IH]; intros i; simpl.
  - rewrite Nat.sub_diag. simpl. split; auto.
  - destruct (ch c LF) eqn:E.
    + rewrite Nat.sub_diag. apply ch_eq in E; subst. simpl. auto.
    + pose proof (scan_line_bounds rest (S i)). destruct (IH (S i)) as [N H1].
      replace (scan_line (S i) rest - i) with (S (scan_line (S i) rest - S i)) by lia.
      simpl. split.
      * intros [H2|H2]; auto. apply ch_neq in E. auto.
      * destruct H1 as [H1|H1]; [left; lia|right; auto].
Qed.
End T.

(** ** Sites in parse trees and parse errors *)


Section S.
Variable unescape : bytes -> option bytes.
Variable id : nat.
Variable src : bytes.

Definition OkSite (st : site) : Prop := site_ok src st /\ s_src st = id.

Lemma tok_ok : forall s tok s2, At src s -> Tok id s tok s2 -> OkSite (t_site tok) /\ At src s2.
Proof.
  intros s tok s2 HA T.
  destruct (tok_at id _ _ _ _ HA T) as (bl & txt & HA2 & L1 & L2 & L3 & SL & B & CV & TT & RE & UF & UC & LS & X).
  split; auto. split; [|tauto]. split; auto.
Qed.

Lemma g_sites :
  (forall s n s', GExpr unescape id s n s' -> At src s -> Forall OkSite (node_sites n) /\ At src s') /\
  (forall s es rp s', GItems unescape id s es rp s' -> At src s ->
     Forall OkSite (flat_map node_sites es) /\ OkSite (t_site rp) /\ At src s').
Proof.
  apply G_mutind; simpl.
  - intros s tok s2 T K HA. destruct (tok_ok _ _ _ HA T). auto.
  - intros s tok s2 T K HA. destruct (tok_ok _ _ _ HA T). auto.
  - intros s tok s2 v T K E HA. destruct (tok_ok _ _ _ HA T). auto.
  - intros s tok s1 v s2 T K G IH HA. destruct (tok_ok _ _ _ HA T) as [O A1].
    destruct (IH A1). auto.
  - intros s tok s1 es rp s2 T K G IH HA. destruct (tok_ok _ _ _ HA T) as [O A1].
    destruct (IH A1) as (? & ? & ?). auto.
  - intros s rp s2 T K HA. destruct (tok_ok _ _ _ HA T). auto.
  - intros s e s1 es rp s2 G IH GI IHI HA. destruct (IH HA) as [F A1].
    destruct (IHI A1) as (F2 & O & A2). split; auto. apply Forall_app; auto.
Qed.

Lemma gprog_sites : forall s es, GProg unescape id s es -> At src s ->
  Forall OkSite (flat_map node_sites es).
Proof.
  intros s es H. induction H; intros HA; simpl; auto.
  destruct (proj1 g_sites _ _ _ H HA) as [F A1]. apply Forall_app; auto.
Qed.

Definition errok {A} (r : res A) : Prop :=
  match r with Err (EErr _ st) => OkSite st | _ => True end.

Lemma errok_bind : forall A B (r : res A) (k : A -> res B),
  errok r -> (forall a, r = Ok a -> errok (k a)) -> errok (bind r k).
Proof. intros A B [a|e|p| |] k H HK; simpl in *; auto. Qed.

Lemma at_site : forall s1 n line, At src s1 -> n <= length (l_rest s1) -> utf8 (firstn n (l_rest s1)) ->
  OkSite (Site id line (l_off s1) (l_col s1) n).
Proof.
  intros s1 n line HA L U. split; [|reflexivity].
  pose proof (line_start_at _ _ HA) as LS.
  destruct HA as (pre & E & O & C & UP & UR). unfold site_ok, covered, site_end; cbn [s_off s_span s_col].
  split. { rewrite E, app_length. lia. }
  split. { rewrite E. rewrite firstn_pre; auto. }
  split; auto. unfold slice. rewrite E, skipn_pre by auto.
  replace (l_off s1 + n - l_off s1) with n by lia. exact U.
Qed.

Lemma at_utf8 : forall s, At src s -> utf8 (l_rest s).
Proof. intros s (? & _ & _ & _ & _ & U); exact U. Qed.

Lemma consume_errok : forall s, At src s -> errok (consume id s).
Proof.
  intros s HA. destruct (consume_spec id s (at_utf8 _ HA)); simpl; auto.
  assert (U1 : utf8 (l_rest s1)).
  { eapply utf8_blank_rest; [exact H|]. rewrite <- (proj1 H0). apply at_utf8; auto. }
  pose proof (at_adv _ _ _ _ _ HA H0 U1) as HA1. apply at_site; auto.
  destruct H3 as [(_ & -> & r & E)|(_ & -> & _)].
  - rewrite E. repeat (apply utf8_ascii_cons; [vm_compute; lia|]); constructor.
  - destruct H1 as [r E]. rewrite E. repeat (apply utf8_ascii_cons; [vm_compute; lia|]); constructor.
Qed.

Lemma consume_at : forall s tok s2, At src s -> consume id s = Ok (tok, s2) ->
  OkSite (t_site tok) /\ At src s2.
Proof.
  intros s tok s2 HA E. pose proof (consume_spec id s (at_utf8 _ HA)) as C. rewrite E in C.
  inversion C; subst. eapply tok_ok; eauto.
Qed.

Lemma peek_errok : forall s, At src s -> errok (peek id s).
Proof.
  intros s HA. rewrite peek_eq. pose proof (consume_errok s HA).
  destruct (consume id s) as [[? ?]| | | |]; simpl in *; auto.
Qed.
Lemma peek_at : forall s tok s2, At src s -> peek id s = Ok (tok, s2) ->
  OkSite (t_site tok) /\ s2 = s.
Proof.
  intros s tok s2 HA E. rewrite peek_eq in E. destruct (consume id s) as [[t s']| | | |] eqn:EC; inversion E; subst.
  destruct (consume_at _ _ _ HA EC). auto.
Qed.
Lemma eof_same : forall s x s2, eof s = Ok (x, s2) -> s2 = s.
Proof. intros s x s2 E. rewrite eof_eq in E. inversion E; auto. Qed.
Lemma eof_errok : forall s, errok (eof s).
Proof. intros s. rewrite eof_eq. exact I. Qed.

Notation parse_atomic := (Parser.parse_atomic unescape id).
Notation parse_expr := (Parser.parse_expr unescape id).
Notation parse_items := (Parser.parse_items unescape id).

Lemma atomic_at : forall s, At src s ->
  errok (parse_atomic s) /\ forall a s', parse_atomic s = Ok (a, s') -> At src s'.
Proof.
  intros s HA. unfold Parser.parse_atomic.
  pose proof (consume_errok s HA) as E. destruct (consume id s) as [[tok s1]| | | |] eqn:EC; simpl in *;
    try (split; [auto|discriminate]).
  destruct (consume_at _ _ _ HA EC) as [O A1].
  destruct (t_kind tok); simpl; try (split; [auto|discriminate]);
    try solve [split; [auto|intros a s' E'; inversion E'; subst; auto]].
  destruct (unescape (t_value tok)); simpl.
  - split; [auto|intros a s' E'; inversion E'; subst; auto].
  - split; [auto|discriminate].
Qed.


Lemma parse_errok : forall fuel,
  (forall s, At src s -> errok (parse_expr fuel s) /\
     forall n s', parse_expr fuel s = Ok (n, s') -> At src s') /\
  (forall s, At src s -> errok (parse_items fuel s) /\
     forall n rp s', parse_items fuel s = Ok (n, rp, s') -> At src s').
Proof.
  induction fuel as [|f [IHe IHi]]; split; intros s HA; try (split; [exact I|discriminate]).
  - rewrite parse_expr_S.
    pose proof (peek_errok s HA) as PE. destruct (peek id s) as [[tok s0]| | | |] eqn:EP; simpl in PE |- *;
      try (split; [auto|discriminate]).
    destruct (peek_at _ _ _ HA EP) as [O ->].
    destruct (atomic_at s HA) as [AE AA].
    destruct (t_kind tok).
    + pose proof (consume_errok s HA) as CE. destruct (consume id s) as [[lp s1]| | | |] eqn:EC; simpl in CE |- *;
        try (split; [auto|discriminate]).
      destruct (consume_at _ _ _ HA EC) as [O1 A1].
      destruct (t_kind lp); simpl; try (split; [auto|discriminate]).
      destruct (IHi s1 A1) as [IE IA].
      destruct (parse_items f s1) as [[[es rp] s2]| | | |]; simpl in IE |- *; try (split; [auto|discriminate]).
      destruct rp; simpl; (split; [auto|]); try discriminate.
      intros n s' E'. inversion E'; subst. eauto.
    + split; [exact O|discriminate].
    + destruct (parse_atomic s) as [[a s1]| | | |]; simpl in AE |- *; try (split; [auto|discriminate]).
      split; auto. intros n s' E'. inversion E'; subst. eauto.
    + destruct (parse_atomic s) as [[a s1]| | | |]; simpl in AE |- *; try (split; [auto|discriminate]).
      split; auto. intros n s' E'. inversion E'; subst. eauto.
    + destruct (parse_atomic s) as [[a s1]| | | |]; simpl in AE |- *; try (split; [auto|discriminate]).
      split; auto. intros n s' E'. inversion E'; subst. eauto.
    + pose proof (consume_errok s HA) as CE. destruct (consume id s) as [[kw s1]| | | |] eqn:EC; simpl in CE |- *;
        try (split; [auto|discriminate]).
      destruct (consume_at _ _ _ HA EC) as [O1 A1].
      destruct (t_kind kw); simpl; try (split; [auto|discriminate]).
      rewrite eof_eq. simpl. destruct (match drop_blank false (l_rest s1) with [] => true | _ => false end).
      { split; [auto|discriminate]. }
      pose proof (peek_errok s1 A1) as PE1. destruct (peek id s1) as [[nx s2]| | | |] eqn:EP1; simpl in PE1 |- *;
        try (split; [auto|discriminate]).
      destruct (peek_at _ _ _ A1 EP1) as [O2 ->].
      destruct (IHe s1 A1) as [EE EA].
      assert (R : errok (let* ' (value, s3) := parse_expr f s1 in
                         Ok (Attr (t_value kw) value (t_site kw) (t_ws kw), s3)) /\
             forall n s', (let* ' (value, s3) := parse_expr f s1 in
                         Ok (Attr (t_value kw) value (t_site kw) (t_ws kw), s3)) = Ok (n, s') -> At src s').
      { destruct (parse_expr f s1) as [[v s3]| | | |]; simpl in EE |- *; try (split; [auto|discriminate]).
        split; auto. intros n s' E'. inversion E'; subst. eauto. }
      destruct (t_kind nx); try exact R. split; [auto|discriminate].
  - rewrite parse_items_S. rewrite eof_eq. simpl.
    destruct (match drop_blank false (l_rest s) with [] => true | _ => false end).
    { split; [exact I|]. intros n rp s' E'. inversion E'; subst; auto. }
    pose proof (peek_errok s HA) as PE. destruct (peek id s) as [[tok s0]| | | |] eqn:EP; simpl in PE |- *;
      try (split; [auto|discriminate]).
    destruct (peek_at _ _ _ HA EP) as [O ->].
    assert (R : errok (let* ' (e, s1) := parse_expr f s in
                       let* ' (es, rp, s2) := parse_items f s1 in Ok (e :: es, rp, s2)) /\
           forall n rp s', (let* ' (e, s1) := parse_expr f s in
                       let* ' (es, rp, s2) := parse_items f s1 in Ok (e :: es, rp, s2)) = Ok (n, rp, s') -> At src s').
    { destruct (IHe s HA) as [EE EA].
      destruct (parse_expr f s) as [[e s1]| | | |]; simpl in EE |- *; try (split; [auto|discriminate]).
      destruct (IHi s1 (EA _ _ eq_refl)) as [IE IA].
      destruct (parse_items f s1) as [[[es rp] s2]| | | |]; simpl in IE |- *; try (split; [auto|discriminate]).
      split; auto. intros n rp' s' E'. inversion E'; subst. eauto. }
    destruct (t_kind tok); try exact R.
    pose proof (consume_errok s HA) as CE. destruct (consume id s) as [[rp s1]| | | |] eqn:EC; simpl in CE |- *;
        try (split; [auto|discriminate]).
    destruct (consume_at _ _ _ HA EC) as [O1 A1]. split; auto. intros n rp' s' E'. inversion E'; subst; auto.
Qed.

Lemma parse_loop_errok : forall fuel s, At src s -> errok (parse_loop unescape id fuel s).
Proof.
  induction fuel as [|f IH]; intros s HA; [exact I|]. cbn [parse_loop].
  rewrite eof_eq. simpl. destruct (match drop_blank false (l_rest s) with [] => true | _ => false end); [exact I|].
  destruct (proj1 (parse_errok f) s HA) as [EE EA].
  destruct (parse_expr f s) as [[e s1]| | | |]; simpl in EE |- *; auto.
  specialize (IH s1 (EA _ _ eq_refl)). destruct (parse_loop unescape id f s1); simpl in *; auto.
Qed.
End S.

Theorem parse_sites : forall unescape id src, utf8 src ->
  match parse unescape id src with
  | Ok ns => Forall (fun st => site_ok src st /\ s_src st = id) (flat_map node_sites ns)
  | Err (EErr _ st) => site_ok src st /\ s_src st = id
  | _ => True
  end.
Proof.
  intros unescape id src U. destruct (parse unescape id src) as [ns|[k st]| | |] eqn:E; auto.
  - apply parse_iff in E; auto. eapply gprog_sites in E; [exact E|]. apply at_new; auto.
  - pose proof (parse_loop_errok unescape id src (parse_fuel src) (lex_new src) (at_new _ U)) as H.
    unfold parse in E. rewrite E in H. exact H.
Qed.
