(** * Whitespace fields, values and source lines *)

From Coq Require Import List Ascii Bool Arith Lia.
From Verif Require Import Text Utf8 Res Lexer Ast Parser Spec_grammar Spec_tree Spec_tokens
  Proofs_text Proofs_lexer Proofs_token Proofs_ast Proofs_parser Proofs_pos Proofs_print.
Import ListNotations.

Lemma blank_value : forall bl w, Blank bl w -> Forall blank_char w.
Proof. intros bl w H. destruct H; auto. constructor; auto. left. reflexivity. Qed.

Lemma toktext_value_utf8 : forall txt k v rest, TokText txt k v rest -> utf8 txt -> utf8 v.
Proof.
  intros txt k v rest H U. destruct H; auto.
  - apply utf8_ascii_tail in U; auto. vm_compute; lia.
  - apply utf8_ascii_tail in U; [|vm_compute; lia].
    apply utf8_split in U as [U _]; auto. reflexivity.
  - unfold quote3 in U. simpl in U. do 3 (apply utf8_ascii_tail in U; [|vm_compute; lia]).
    apply utf8_split in U as [U _]; auto. reflexivity.
Qed.

Lemma utf8_unbackslash : forall t, utf8 t -> utf8 (unbackslash t).
Proof.
  intros t H. induction H as [|c s Hc Hs IH]; [constructor|].
  unfold unbackslash. rewrite filter_app. apply utf8_app2; auto.
  destruct (utf8_char_shape c Hc) as (c0 & ks & -> & NC & FK & D). simpl.
  assert (K : filter (fun c => negb (ch c BS)) ks = ks).
  { clear - FK. induction FK as [|x l H F IH]; auto. simpl. apply cont_high in H.
    apply high_not in H as [_ H]. apply ch_neq in H. rewrite H. simpl. rewrite IH. reflexivity. }
  rewrite K. destruct (ch c0 BS) eqn:E; simpl.
  - apply ch_eq in E. subst. destruct D as [[_ ->]|[D _]]; [constructor|]. vm_compute in D. lia.
  - rewrite <- (app_nil_r (c0 :: ks)). apply utf8_app; auto. constructor.
Qed.

Section S.
Variable unescape : bytes -> option bytes.
Variable id : nat.
Variable src : bytes.

Lemma tok_fields : forall s tok s2, At src s -> Tok id s tok s2 ->
  At src s2 /\ Forall blank_char (t_ws tok) /\ utf8 (t_value tok).
Proof.
  intros s tok s2 HA T.
  destruct (tok_at id _ _ _ _ HA T) as (bl & txt & HA2 & L1 & L2 & L3 & SL & B & CV & TT & RE & UF & UC & LS & X).
  split; auto. split; [eapply blank_value; eauto|].
  eapply toktext_value_utf8; eauto. rewrite <- CV. auto.
Qed.

Definition WF (w : bytes) := Forall blank_char w.
Hypothesis unescape_utf8 : forall t v, utf8 t -> unescape t = Some v -> utf8 v.

Lemma g_fields :
  (forall s n s', GExpr unescape id s n s' -> At src s ->
     Forall WF (ws_fields n) /\ Forall utf8 (values n) /\ At src s') /\
  (forall s es rp s', GItems unescape id s es rp s' -> At src s ->
     Forall WF (flat_map ws_fields es) /\ WF (t_ws rp) /\ Forall utf8 (flat_map values es) /\ At src s').
Proof.
  apply G_mutind; simpl.
  - intros s tok s2 T K HA. destruct (tok_fields _ _ _ HA T) as (A & B & C).
    split; [|split]; auto. constructor; auto using utf8_unbackslash.
  - intros s tok s2 T K HA. destruct (tok_fields _ _ _ HA T) as (A & B & C).
    split; [|split]; auto. constructor; auto using utf8_unbackslash.
  - intros s tok s2 v T K E HA. destruct (tok_fields _ _ _ HA T) as (A & B & C).
    split; [|split]; auto. constructor; eauto.
  - intros s tok s1 v s2 T K G IH HA. destruct (tok_fields _ _ _ HA T) as (A & B & C).
    destruct (IH A) as (? & ? & ?). auto.
  - intros s tok s1 es rp s2 T K G IH HA. destruct (tok_fields _ _ _ HA T) as (A & B & C).
    destruct (IH A) as (? & ? & ? & ?). auto.
  - intros s rp s2 T K HA. destruct (tok_fields _ _ _ HA T) as (A & B & C). auto.
  - intros s e s1 es rp s2 G IH GI IHI HA. destruct (IH HA) as (F & V & A1).
    destruct (IHI A1) as (F2 & O & V2 & A2). split; [apply Forall_app; auto|]. split; auto.
    split; auto. apply Forall_app; auto.
Qed.
Lemma gprog_fields : forall s es, GProg unescape id s es -> At src s ->
  Forall WF (flat_map ws_fields es) /\ Forall utf8 (flat_map values es).
Proof.
  intros s es H. induction H; intros HA; simpl; auto.
  destruct (proj1 g_fields _ _ _ H HA) as (F & V & A1). destruct (IHGProg A1).
  split; apply Forall_app; auto.
Qed.
End S.

Lemma g_ws : forall unescape id,
  (forall s n s', GExpr unescape id s n s' -> Forall WF (ws_fields n)) /\
  (forall s es rp s', GItems unescape id s es rp s' -> Forall WF (flat_map ws_fields es) /\ WF (t_ws rp)).
Proof.
  intros unescape id.
  assert (T : forall s tok s2, Tok id s tok s2 -> WF (t_ws tok)).
  { intros s tok s2 (bl & w & s1 & txt & k & v & B & _ & _ & _ & ->). eapply blank_value; eauto. }
  apply G_mutind; simpl; intros; eauto.
  - destruct H. eauto.
  - destruct H0. split; auto. apply Forall_app; auto.
Qed.

Theorem parse_ws : forall unescape id src ns, utf8 src -> parse unescape id src = Ok ns ->
  Forall (Forall blank_char) (flat_map ws_fields ns).
Proof.
  intros unescape id src ns U E. apply parse_iff in E; auto.
  remember (lex_new src) as s. clear Heqs. induction E; simpl; auto.
  apply Forall_app. split; auto. apply (proj1 (g_ws unescape id) _ _ _ H).
Qed.

Theorem parse_utf8 : forall unescape id src ns,
  (forall t v, utf8 t -> unescape t = Some v -> utf8 v) ->
  utf8 src -> parse unescape id src = Ok ns -> Forall utf8 (flat_map values ns).
Proof.
  intros unescape id src ns H U E. apply parse_iff in E; auto.
  apply (gprog_fields unescape id src H _ _ E). apply at_new; auto.
Qed.

Lemma reads_fields : forall id src toks s s', At src s -> Reads id s toks s' ->
  Forall (fun t => Forall blank_char (t_ws t) /\ utf8 (t_value t)) toks.
Proof.
  intros id src. induction toks as [|tok toks IH]; intros s s' HA HR; constructor.
  - assert (U : utf8 (l_rest s)) by (destruct HA as (? & _ & _ & _ & _ & U); exact U).
    destruct (reads_tok _ _ _ _ U HR) as [[? _]|(tok' & s1 & toks' & E & T & R)]; [discriminate|].
    inversion E; subst. destruct (tok_fields id src _ _ _ HA T) as (_ & ? & ?). auto.
  - assert (U : utf8 (l_rest s)) by (destruct HA as (? & _ & _ & _ & _ & U); exact U).
    destruct (reads_tok _ _ _ _ U HR) as [[? _]|(tok' & s1 & toks' & E & T & R)]; [discriminate|].
    inversion E; subst. destruct (tok_fields id src _ _ _ HA T) as (? & ? & ?). eapply IH; eauto.
Qed.

Lemma skipn_skipn : forall (A : Type) (l : list A) x y, skipn x (skipn y l) = skipn (x + y) l.
Proof.
  intros A l x y. revert l. induction y as [|y IH]; intros l; [rewrite Nat.add_0_r; reflexivity|].
  rewrite Nat.add_succ_r. destruct l; [rewrite !skipn_nil; reflexivity|]. simpl. apply IH.
Qed.

(** The line shown in error messages. *)
Lemma site_line : forall src st, site_ok src st ->
  exists before line after, src = before ++ line ++ after /\ ~ In LF line /\
    (before = [] \/ exists x, before = x ++ [LF]) /\ (after = [] \/ exists x, after = LF :: x) /\
    length before <= s_off st <= length before + length line /\
    s_col st = s_off st - length before /\
    site_line_slice src st = line.
Proof.
  intros src st (SE & _ & _ & LC & NL & SL). unfold site_end in SE.
  pose proof (scan_line_bounds (skipn (s_off st) src) (s_off st)) as SB.
  rewrite skipn_length in SB.
  destruct (scan_line_spec (skipn (s_off st) src) (s_off st)) as [SN SP].
  rewrite skipn_length in SP.
  set (e := scan_line (s_off st) (skipn (s_off st) src)) in *.
  set (p := s_off st - s_col st) in *.
  exists (firstn p src), (slice p e src), (skipn e src).
  assert (SPLIT : src = firstn p src ++ slice p e src ++ skipn e src).
  { unfold slice. rewrite <- (firstn_skipn p src) at 1. f_equal.
    rewrite <- (firstn_skipn (e - p) (skipn p src)) at 1. f_equal.
    rewrite skipn_skipn. f_equal. lia. }
  assert (LS : length (slice p e src) = e - p).
  { unfold slice. rewrite firstn_length, skipn_length. lia. }
  assert (LF1 : length (firstn p src) = p) by (rewrite firstn_length; lia).
  split; auto. split.
  { replace (slice p e src) with (slice p (s_off st) src ++ slice (s_off st) e src).
    - rewrite in_app_iff. intros [X|X]; auto.
    - unfold slice. replace (e - p) with ((s_off st - p) + (e - s_off st)) by lia.
      rewrite <- (firstn_skipn (s_off st - p) (firstn (s_off st - p + (e - s_off st)) (skipn p src))).
      f_equal.
      + rewrite firstn_firstn. f_equal. lia.
      + rewrite skipn_firstn_comm, skipn_skipn. f_equal; [lia|]. f_equal. lia. }
  split.
  { destruct (Nat.eq_dec p 0) as [Z|NZ]; [left; rewrite Z; reflexivity|right].
    destruct SL as [SL|SL]; [congruence|]. apply nth_error_split in SL as (l1 & l2 & E & L).
    exists l1. rewrite E. replace p with (length (l1 ++ [LF])) by (rewrite app_length; simpl; lia).
    change (l1 ++ LF :: l2) with (l1 ++ [LF] ++ l2). rewrite app_assoc.
    apply firstn_pre. reflexivity. }
  split.
  { destruct SP as [SP|SP].
    - left. rewrite SP. replace (s_off st + (length src - s_off st)) with (length src) by lia.
      apply skipn_all.
    - right. apply nth_error_split in SP as (l1 & l2 & E & L). exists l2.
      replace e with ((e - s_off st) + s_off st) by lia. rewrite <- skipn_skipn, E, <- L.
      rewrite skipn_pre; auto. }
  split; [lia|]. split; [lia|]. reflexivity.
Qed.
