(** * [pre] elements print their source text *)

From Coq Require Import String List Ascii Bool Arith Lia.
From Verif Require Import Text Utf8 Res Lexer Ast Parser Debug Format Spec_grammar Spec_tree Spec_tokens
  Spec_markup Spec_output Proofs_text Proofs_lexer Proofs_token Proofs_ast Proofs_parser Proofs_pos
  Proofs_fields Proofs_markup Proofs_css Proofs_output.
Import ListNotations.

Lemma boundary_at : forall p q, utf8 q -> is_boundary (p ++ q) (length p) = true.
Proof.
  intros p q U. unfold is_boundary. rewrite skipn_pre by reflexivity.
  destruct q as [|c q].
  - rewrite app_nil_r. apply Nat.leb_refl.
  - rewrite (utf8_head_not_cont _ _ U). reflexivity.
Qed.
Lemma blank_utf8 : forall w, Forall blank_char w -> utf8 w.
Proof.
  induction 1 as [|c w H F IH]; [constructor|].
  apply utf8_ascii_cons; auto. destruct H as [->|[->|[->| ->]]]; vm_compute; lia.
Qed.
Lemma blank_suffix : forall bl w, Blank bl w -> Forall blank_char w /\ exists x, bl = x ++ w.
Proof.
  intros bl w H. destruct H as [w F|t w' body w B N F].
  - split; auto. exists []. reflexivity.
  - split; [constructor; [left; reflexivity|auto]|]. exists (t ++ ";"%char :: body). rewrite <- app_assoc. reflexivity.
Qed.

Section P.
Variable unescape : bytes -> option bytes.
Variable id : nat.
Variable src : bytes.
Hypothesis U : utf8 src.

(** The node's whitespace stands in front of its position. *)
Definition placed (ws : bytes) (st : site) : Prop :=
  s_src st = id /\ Forall blank_char ws /\
  exists pre post, src = pre ++ ws ++ post /\ s_off st = length pre + length ws /\ utf8 post.
Definition closed_at (es : site) : Prop :=
  s_src es = id /\ exists pre post, src = pre ++ ")"%char :: post /\ s_off es = length pre.
Definition good_list (x : list node * bytes * site) : Prop :=
  let '(ns, ew, es) := x in
  placed ew es /\ closed_at es /\
  Forall (fun k => placed (leading_ws k) (node_site k) /\ s_off (node_site k) < s_off es) ns.

Lemma tok_placed : forall s tok s2, At src s -> Tok id s tok s2 ->
  At src s2 /\ l_off s <= s_off (t_site tok) /\ s_off (t_site tok) < l_off s2 /\
  placed (t_ws tok) (t_site tok) /\
  (t_kind tok = KRParen -> closed_at (t_site tok)).
Proof.
  intros s tok s2 HA T.
  destruct (tok_at id _ _ _ _ HA T) as (bl & txt & HA2 & L1 & L2 & L3 & SL & B & CV & TT & RE & UF & UC & _ & _ & _ & F1 & F2 & SI).
  split; auto. split; auto.
  assert (E : src = firstn (s_off (t_site tok)) src ++ skipn (s_off (t_site tok)) src)
    by (symmetry; apply firstn_skipn).
  assert (LF' : length (firstn (s_off (t_site tok)) src) = s_off (t_site tok)).
  { apply firstn_length_le. unfold site_end in L3. lia. }
  assert (LN : length txt <> 0) by (inversion TT; subst; discriminate).
  split.
  { assert (LL : length (firstn (l_off s2) src) = l_off s2) by (apply firstn_length_le; lia).
    rewrite F2, app_length, LF' in LL. lia. }
  split.
  - split; auto. destruct (blank_suffix _ _ B) as [Fw [x Ex]]. split; auto.
    exists (firstn (l_off s) src ++ x), (skipn (s_off (t_site tok)) src).
    split; [|split].
    + rewrite E at 1. rewrite F1, Ex, <- !app_assoc. reflexivity.
    + rewrite <- LF', F1, Ex, !app_length. lia.
    + destruct HA2 as (pre2 & E2 & O2 & _ & _ & U2).
      replace (skipn (s_off (t_site tok)) src) with (txt ++ l_rest s2).
      * apply utf8_app2; auto. rewrite <- CV. auto.
      * apply (app_inv_head (firstn (s_off (t_site tok)) src)). rewrite <- E, app_assoc, <- F2.
        rewrite O2. rewrite E2 at 1. rewrite firstn_pre by reflexivity. auto.
  - intros K. split; auto. rewrite K in TT. simpl in TT. inversion TT; subst.
    exists (firstn (s_off (t_site tok)) src), (skipn (l_off s2) src). split; auto.
    rewrite <- (firstn_skipn (l_off s2) src) at 1. rewrite F2, <- app_assoc.
    match goal with H : [")"%char] = covered _ _ |- _ => rewrite <- H end. reflexivity.
Qed.

Lemma g_lists :
  (forall s n s', GExpr unescape id s n s' -> At src s ->
     At src s' /\ l_off s <= s_off (node_site n) /\ s_off (node_site n) < l_off s' /\ placed (leading_ws n) (node_site n) /\
     Forall good_list (lists_in n)) /\
  (forall s ns rp s', GItems unescape id s ns rp s' -> At src s ->
     At src s' /\ l_off s <= s_off (t_site rp) /\ s_off (t_site rp) < l_off s' /\ placed (t_ws rp) (t_site rp) /\
     closed_at (t_site rp) /\
     Forall (fun k => placed (leading_ws k) (node_site k) /\ s_off (node_site k) < s_off (t_site rp)) ns /\
     Forall good_list (flat_map lists_in ns)).
Proof.
  apply G_mutind.
  - intros s tok s2 T K HA. destruct (tok_placed _ _ _ HA T) as (A & L1 & L2 & P & _). simpl; auto.
  - intros s tok s2 T K HA. destruct (tok_placed _ _ _ HA T) as (A & L1 & L2 & P & _). simpl; auto.
  - intros s tok s2 v T K V HA. destruct (tok_placed _ _ _ HA T) as (A & L1 & L2 & P & _). simpl; auto.
  - intros s tok s1 v s2 T K G IH HA. destruct (tok_placed _ _ _ HA T) as (A & L1 & L2 & P & _).
    destruct (IH A) as (A2 & L3 & L4 & P2 & F). cbn [node_site leading_ws lists_in].
    split; auto. split; [lia|]. split; [lia|]. split; auto.
  - intros s tok s1 es rp s2 T K G IH HA. destruct (tok_placed _ _ _ HA T) as (A & L1 & L2 & P & _).
    destruct (IH A) as (A2 & L3 & L4 & P2 & C & F1 & F2). cbn [node_site leading_ws lists_in].
    split; auto. split; [lia|]. split; [lia|]. split; auto. constructor; auto. simpl. auto.
  - intros s rp s2 T K HA. destruct (tok_placed _ _ _ HA T) as (A & L1 & L2 & P & C).
    split; auto. split; auto. split; auto. split; auto. split; auto. split; simpl; auto.
  - intros s e s1 es rp s2 G IH G2 IH2 HA. destruct (IH HA) as (A1 & L1 & L2 & P1 & F1).
    destruct (IH2 A1) as (A2 & L3 & L4 & P2 & C & F2 & F3).
    split; auto. split; [lia|]. split; auto. split; auto. split; auto.
    split; [constructor; [split; [auto|lia]|auto]|]. simpl. apply Forall_app. auto.
Qed.

Lemma gprog_lists : forall s ns, GProg unescape id s ns -> At src s -> Forall good_list (flat_map lists_in ns).
Proof.
  intros s ns H. induction H as [s T|s e s1 es G GP IH]; intros HA; simpl; [constructor|].
  destruct (proj1 g_lists _ _ _ G HA) as (A1 & _ & _ & _ & F). apply Forall_app. auto.
Qed.

Lemma drop_space_eq : forall w, Forall blank_char w ->
  exists k, w = k ++ drop_space w /\ length k = (if starts_with (b " ") w then 1 else 0).
Proof.
  intros [|c w] F; [exists []; auto|]. inversion F as [|? ? B _]; subst.
  destruct B as [->|[->|[->| ->]]]; try (exists []; split; reflexivity). exists [" "%char]. split; auto.
Qed.

Lemma raw_text_ok : forall sources ew es k, sources id = src ->
  placed (leading_ws k) (node_site k) -> closed_at es -> s_off (node_site k) <= s_off es ->
  raw_text sources (Some k) ew es =
    Ok (drop_space (leading_ws k) ++ slice (s_off (node_site k)) (s_off es) src).
Proof.
  intros sources ew es k ES (I1 & F & pre & post & E1 & O1 & U1) (I2 & pre2 & post2 & E2 & O2) LE.
  unfold raw_text. rewrite I1, I2, Nat.eqb_refl. cbn [negb].
  replace (s_off (node_site k) <? length (leading_ws k)) with false
    by (symmetry; apply Nat.ltb_ge; lia).
  destruct (drop_space_eq _ F) as (d & ED & LD). rewrite <- LD. clear LD.
  set (ws := leading_ws k) in *. set (dw := drop_space ws) in *. clearbody dw ws.
  rewrite ES. unfold str_slice.
  assert (POST : post = slice (s_off (node_site k)) (s_off es) src ++ ")"%char :: post2).
  { apply (app_inv_head (pre ++ ws)). rewrite <- !app_assoc, <- E1.
    rewrite E2 at 1. rewrite E2.
    assert (PP : pre2 = (pre ++ ws) ++ skipn (s_off (node_site k)) pre2).
    { rewrite <- (firstn_skipn (s_off (node_site k)) pre2) at 1. f_equal.
      rewrite <- (firstn_pre pre2 (")"%char :: post2) (length pre2) eq_refl) at 1.
      rewrite <- E2, firstn_firstn. rewrite Nat.min_l by lia. rewrite E1, app_assoc.
      apply firstn_pre. rewrite app_length. lia. }
    rewrite PP at 1. rewrite <- !app_assoc. do 2 f_equal. f_equal.
    unfold slice. rewrite skipn_app.
    replace (s_off (node_site k) - length pre2) with 0 by lia. rewrite firstn_app. rewrite skipn_length.
    replace (s_off es - s_off (node_site k) - (length pre2 - s_off (node_site k))) with 0 by lia.
    rewrite app_nil_r. rewrite firstn_all2; auto. rewrite skipn_length. lia. }
  set (m := slice (s_off (node_site k)) (s_off es) src) in *.
  assert (SRC : src = (pre ++ d) ++ (dw ++ m) ++ ")"%char :: post2).
  { rewrite E1, ED, POST. rewrite <- !app_assoc. reflexivity. }
  assert (LM : length pre2 = length (pre ++ d ++ dw ++ m)).
  { assert (length src = length src) as LL by reflexivity. rewrite SRC in LL at 1. rewrite E2 in LL.
    rewrite !app_length in *. simpl in LL. lia. }
  assert (OFF : s_off (node_site k) - length (ws) + length d = length (pre ++ d)).
  { rewrite app_length. lia. }
  rewrite OFF, O2, LM.
  assert (UP : utf8 ((dw ++ m) ++ ")"%char :: post2)).
  { rewrite <- app_assoc, <- POST. apply utf8_app2; auto. apply blank_utf8.
    rewrite ED in F. apply Forall_app in F. tauto. }
  assert (BD : utf8 (")"%char :: post2)).
  { apply utf8_split in UP; [tauto|]. reflexivity. }
  replace (_ <=? _) with true by (symmetry; apply Nat.leb_le; rewrite !app_length; lia).
  replace (_ <=? length src) with true
    by (symmetry; apply Nat.leb_le; rewrite SRC, !app_length; lia).
  assert (B1 : is_boundary src (length (pre ++ d)) = true).
  { rewrite SRC. apply boundary_at. auto. }
  assert (B2 : is_boundary src (length (pre ++ d ++ dw ++ m)) = true).
  { replace src with ((pre ++ d ++ dw ++ m) ++ ")"%char :: post2)
      by (rewrite SRC, <- !app_assoc; reflexivity).
    apply boundary_at. auto. }
  rewrite B1, B2. cbn [andb]. f_equal. rewrite SRC. apply slice_mid; auto. rewrite !app_length. lia.
Qed.
End P.

Lemma inside_lists : forall ns s ew es w n, Inside (Lst ns s ew es w) n -> In (ns, ew, es) (lists_in n).
Proof.
  intros ns s ew es w n H. remember (Lst ns s ew es w) as m eqn:E. induction H; subst.
  - left. reflexivity.
  - right. apply in_flat_map. eauto.
  - simpl. auto.
Qed.

Lemma parsed_lists : forall unescape id src t, utf8 src -> parse unescape id src = Ok t ->
  forall n m ns s ew es w, In n t -> Inside m n -> m = Lst ns s ew es w -> good_list id src (ns, ew, es).
Proof.
  intros unescape id src t U E n m ns s ew es w I1 I2 ->.
  apply parse_iff in E; auto.
  pose proof (gprog_lists unescape id src _ _ E (at_new _ U)) as F. rewrite Forall_forall in F.
  apply F. apply in_flat_map. exists n. split; auto. eapply inside_lists; eauto.
Qed.

Lemma pre_element : forall unescape id src t printable sources, utf8 src ->
  parse unescape id src = Ok t -> sources id = src ->
  forall n m a rest s ew es w0, In n t -> Inside m n -> m = Lst (Sym a :: rest) s ew es w0 ->
    to_lower (a_val a) = b "pre" ->
  forall w k more, drop_attributes rest = k :: more ->
    nth_error src (s_off es) = Some ")"%char /\
    html_node_ws printable sources w m =
      (let* attrs := html_attributes rest in
       Ok (w ++ b "<" ++ a_val a ++ attrs ++ b ">" ++
           (drop_space (leading_ws k) ++ slice (s_off (node_site k)) (s_off es) src) ++
           (match ew with [] => if has LF (leading_ws k) then w else [] | _ => ew end) ++ b "</pre>")).
Proof.
  intros unescape id src t printable sources U E ES n m a rest s ew es w0 I1 I2 Em Et w k more Ek.
  destruct (parsed_lists _ _ _ _ U E n m _ _ _ _ _ I1 I2 Em) as (Pe & C & F).
  inversion F as [|? ? _ F']; subst.
  assert (IK : In k rest) by (apply drop_in; rewrite Ek; left; auto).
  rewrite Forall_forall in F'. destruct (F' k IK) as [Pk Lk].
  pose proof (raw_text_ok unescape id _ sources ew es k eq_refl Pk C ltac:(lia)) as R.
  split.
  - destruct C as (_ & p & q & Eq & O). rewrite Eq, O. rewrite nth_error_app2 by lia. rewrite Nat.sub_diag. reflexivity.
  - cbn [Format.html_node_ws]. rewrite Et.
    rewrite Ek, R.
    change (mem (b "pre") void_elements) with false. change (beq (b "pre") (b "pre")) with true.
    unfold closing_ws. change (beq (b "pre") (b "style")) with false.
    change (b "pre") with ("p"%char :: b "re") at 1. cbv iota beta.
    change (ch "p" "!") with false. cbv iota.
    destruct (html_attributes rest) as [attrs| | | |]; try reflexivity. cbn [bind].
    f_equal. rewrite <- !app_assoc. cbn [on_next_line]. rewrite orb_false_r. reflexivity.
Qed.

Lemma no_bad_pre : forall unescape id src t sources, utf8 src ->
  parse unescape id src = Ok t -> sources id = src ->
  forall n m, In n t -> Inside m n -> ~ bad_pre sources m.
Proof.
  intros unescape id src t sources U E ES n m I1 I2 (a & rest & s & ew & es & w & k & p & Em & _ & Ik & R).
  destruct (parsed_lists _ _ _ _ U E n m _ _ _ _ _ I1 I2 Em) as (Pe & C & F).
  rewrite Forall_forall in F. destruct (F k (or_intror Ik)) as [Pk Lk].
  rewrite (raw_text_ok unescape id _ sources ew es k ES Pk C ltac:(lia)) in R. discriminate.
Qed.
