(** * Error reports *)

From Coq Require Import String List Ascii Bool Arith Lia.
From Verif Require Import Text Utf8 Res Numbers Lexer Ast Format Report Spec_tokens Spec_tree Spec_report
  Proofs_text Proofs_lexer Proofs_token Proofs_pos Proofs_fields.
Import ListNotations.

Lemma boundary_bool : forall x y, boundary y -> is_boundary (x ++ y) (length x) = true.
Proof.
  intros x y B. unfold is_boundary. rewrite skipn_pre by reflexivity.
  destruct y; [apply Nat.leb_le; rewrite app_nil_r; auto|]. simpl in B. rewrite B. reflexivity.
Qed.

Lemma str_slice_mid : forall x y z, utf8 (x ++ y ++ z) -> boundary (y ++ z) -> boundary z ->
  str_slice (x ++ y ++ z) (length x) (length x + length y) = Ok y.
Proof.
  intros x y z U B1 B2. unfold str_slice.
  rewrite (boundary_bool x (y ++ z) B1).
  rewrite app_assoc at 2. rewrite <- app_length, (boundary_bool (x ++ y) z B2).
  rewrite !app_length. 
  replace (length x <=? length x + length y) with true by (symmetry; apply Nat.leb_le; lia).
  replace (length x + length y <=? length x + (length y + length z)) with true
    by (symmetry; apply Nat.leb_le; lia).
  cbn [andb]. f_equal. apply slice_mid; auto.
Qed.

Lemma boundary_lf : forall x y, utf8 (x ++ y) -> (x = [] \/ exists z, x = z ++ [LF]) -> boundary y.
Proof.
  intros x y U [->|[z ->]]; [apply utf8_boundary; exact U|].
  rewrite <- app_assoc in U. apply utf8_split in U as [_ U]; [|reflexivity].
  apply utf8_ascii_tail in U; [apply utf8_boundary; exact U|vm_compute; lia].
Qed.

(** The first byte of a character determines its length. *)
Definition lead (n : nat) : nat := if n <? 128 then 0 else if n <? 224 then 1 else if n <? 240 then 2 else 3.
Lemma char_length : forall c ks, utf8_char (c :: ks) = true -> length ks = lead (nat_of_ascii c).
Proof.
  intros c ks H. unfold lead.
  assert (L : forall a n, n < a -> (n <? a) = true) by (intros; apply Nat.ltb_lt; auto).
  assert (G : forall a n, a <= n -> (n <? a) = false) by (intros; apply Nat.ltb_ge; auto).
  destruct ks as [|d [|e [|f [|]]]]; simpl in H; try discriminate.
  - apply between_iff in H. rewrite L by lia. reflexivity.
  - apply andb_true_iff in H as [H1 H2]. apply between_iff in H1. rewrite G, L by lia. reflexivity.
  - rewrite !orb_true_iff, !andb_true_iff in H.
    destruct H as [[[[[H1 H2] H3]|[[H1 H2] H3]]|[[H1 H2] H3]]|[[H1 H2] H3]];
      apply between_iff in H1; rewrite G, G, L by lia; reflexivity.
  - rewrite !orb_true_iff, !andb_true_iff in H.
    destruct H as [[[[[H1 H2] H3] H4]|[[[H1 H2] H3] H4]]|[[[H1 H2] H3] H4]];
      apply between_iff in H1; rewrite G, G, G by lia; reflexivity.
Qed.

Lemma utf8_tail : forall x y, utf8 x -> utf8 (x ++ y) -> utf8 y.
Proof.
  intros x y U1. induction U1 as [|c s Hc Hs IH]; intros U; [exact U|].
  rewrite <- app_assoc in U. apply IH.
  destruct (utf8_char_shape _ Hc) as (a1 & k1 & -> & _).
  destruct (utf8_cons_inv _ _ U) as (k2 & r & E & H2 & Hr & _).
  pose proof (char_length _ _ Hc) as L1. pose proof (char_length _ _ H2) as L2.
  assert (r = s ++ y) as <-; [|exact Hr].
  apply (f_equal (skipn (length k1))) in E. rewrite skipn_pre in E by reflexivity.
  rewrite skipn_pre in E by congruence. auto.
Qed.

Lemma scan_line_app : forall x y i, ~ In LF x -> (y = [] \/ exists z, y = LF :: z) ->
  scan_line i (x ++ y) = i + length x.
Proof.
  induction x as [|c x IH]; intros y i N H.
  - destruct H as [->|[z ->]]; simpl; lia.
  - simpl. destruct (ch c LF) eqn:E; [apply ch_eq in E; subst; exfalso; apply N; left; reflexivity|].
    rewrite IH; [lia| |exact H]. intros Q. apply N. right. exact Q.
Qed.

(** Everything a report needs to know about a site. *)
Lemma site_cut : forall src st, utf8 src -> site_ok src st ->
  exists before left right after, src = before ++ left ++ right ++ after /\
    s_off st = length (before ++ left) /\ s_col st = length left /\ ~ In LF (left ++ right) /\
    (before = [] \/ exists x, before = x ++ [LF]) /\ (after = [] \/ exists x, after = LF :: x) /\
    boundary (left ++ right ++ after) /\ boundary (right ++ after) /\ boundary after.
Proof.
  intros src st U O. destruct (site_line src st O) as (be & line & af & E & N & B & A & [O1 O2] & C & _).
  destruct O as (SE & U1 & U2 & LC & _).
  assert (L : line = firstn (s_col st) line ++ skipn (s_col st) line) by (symmetry; apply firstn_skipn).
  set (left := firstn (s_col st) line) in *. set (right := skipn (s_col st) line) in *.
  assert (LL : length left = s_col st) by (unfold left; rewrite firstn_length; lia).
  assert (E2 : src = be ++ left ++ right ++ af) by (rewrite E, L, <- app_assoc; reflexivity).
  exists be, left, right, af.
  assert (OFF : s_off st = length (be ++ left)) by (rewrite app_length; lia).
  assert (BA : boundary af) by (destruct A as [->|[x ->]]; reflexivity).
  assert (BR : boundary (right ++ af)).
  { apply utf8_boundary. rewrite E2 in U, U1.
    rewrite app_assoc in U, U1.
    rewrite firstn_pre in U1 by exact OFF. exact (utf8_tail _ _ U1 U). }
  split; [exact E2|]. split; [exact OFF|]. split; [congruence|]. split; [rewrite <- L; exact N|].
  split; [exact B|]. split; [exact A|].
  split; [eapply boundary_lf; [rewrite <- E2; exact U|exact B]|]. split; [exact BR|exact BA].
Qed.

Lemma covered_ok : forall src st, utf8 src -> site_ok src st ->
  str_slice src (s_off st) (s_off st + s_span st) = Ok (covered src st).
Proof.
  intros src st U (SE & U1 & U2 & _). unfold site_end in SE.
  assert (E : src = firstn (s_off st) src ++ covered src st ++ skipn (s_off st + s_span st) src).
  { unfold covered, site_end, slice. rewrite <- (firstn_skipn (s_off st) src) at 1. f_equal.
    replace (s_off st + s_span st - s_off st) with (s_span st) by lia.
    rewrite <- (firstn_skipn (s_span st) (skipn (s_off st) src)) at 1. f_equal.
    rewrite skipn_skipn. f_equal. lia. }
  assert (L1 : length (firstn (s_off st) src) = s_off st) by (rewrite firstn_length; lia).
  assert (L2 : length (covered src st) = s_span st).
  { unfold covered, site_end, slice. rewrite firstn_length, skipn_length. lia. }
  pose proof U as U'. rewrite E in U'. pose proof (utf8_tail _ _ U1 U') as U3.
  pose proof (utf8_tail _ _ U2 U3) as U4.
  pose proof (str_slice_mid _ _ _ U' (utf8_boundary _ U3) (utf8_boundary _ U4)) as Q.
  rewrite L1, L2, <- E in Q. exact Q.
Qed.

Lemma log_ok : forall D src st path words, utf8 src -> site_ok src st ->
  exists left right, line_at src (s_off st) left right /\
    log_text D path src st words = Ok (full_line D path (s_line st) left words).
Proof.
  intros D src st path words U O.
  destruct (site_cut src st U O) as (be & left & right & af & E & OFF & COL & N & B & A & B1 & B2 & B3).
  exists left, right. split; [exists be, af; auto|].
  assert (SL : start_of_line st = Ok (length be)).
  { unfold start_of_line, usize_sub. rewrite OFF, COL, app_length.
    replace (length left <=? length be + length left) with true by (symmetry; apply Nat.leb_le; lia).
    f_equal. lia. }
  assert (LC : line_column D src st = Ok (d_width D left + 1)).
  { unfold line_column. rewrite SL. cbn [bind]. rewrite OFF, app_length.
    rewrite E at 1. rewrite str_slice_mid; [reflexivity| |exact B1|exact B2]. rewrite <- E. exact U. }
  unfold log_text, show_site. rewrite LC. cbn [bind]. reflexivity.
Qed.
Lemma report_ok : forall D src st path msg k, utf8 src -> site_ok src st ->
  exists left right, line_at src (s_off st) left right /\
    report D path src msg (EErr k st) =
      if fitting D (s_line st) left (covered src st)
      then Ok (full_report D k path msg (s_line st) left right (covered src st)) else Panic PExplicit.
Proof.
  intros D src st path msg k U O.
  destruct (site_cut src st U O) as (be & left & right & af & E & OFF & COL & N & B & A & B1 & B2 & B3).
  exists left, right. split; [exists be, af; auto|].
  assert (SL : start_of_line st = Ok (length be)).
  { unfold start_of_line, usize_sub. rewrite OFF, COL, app_length.
    replace (length left <=? length be + length left) with true by (symmetry; apply Nat.leb_le; lia).
    f_equal. lia. }
  assert (EL : site_end_of_line src st = length be + length (left ++ right)).
  { unfold site_end_of_line. rewrite OFF. rewrite E at 1. rewrite app_assoc, skipn_pre by reflexivity.
    rewrite scan_line_app; [rewrite !app_length; lia| |exact A].
    intros Q. apply N. apply in_or_app. auto. }
  assert (LS : line_slice src st = Ok (left ++ right)).
  { unfold line_slice. rewrite SL. cbn [bind]. rewrite EL.
    rewrite E at 1. rewrite (app_assoc left right af). apply str_slice_mid.
    - rewrite <- (app_assoc left right af), <- E. exact U.
    - rewrite <- app_assoc. exact B1.
    - exact B3. }
  assert (LC : line_column D src st = Ok (d_width D left + 1)).
  { unfold line_column. rewrite SL. cbn [bind]. rewrite OFF, app_length.
    rewrite E at 1. rewrite str_slice_mid; [reflexivity| |exact B1|exact B2]. rewrite <- E. exact U. }
  assert (SW : site_width D src st = Ok (d_width D (covered src st))).
  { unfold site_width. rewrite covered_ok; auto. }
  unfold report, excerpt, headline, show_site. rewrite LS, LC, SW. cbn [bind].
  unfold usize_sub. replace (1 <=? d_width D left + 1) with true by (symmetry; apply Nat.leb_le; lia).
  cbn [bind]. replace (d_width D left + 1 - 1) with (d_width D left) by lia.
  unfold fitting, padded. fold (gutter (s_line st)).
  destruct (d_fits D (d_width D (gutter (s_line st)))); cbn [bind andb]; [|reflexivity].
  destruct (d_fits D (d_width D left)); cbn [bind andb]; [|reflexivity].
  destruct (d_fits D (d_width D (covered src st))); cbn [bind andb]; [|reflexivity].
  f_equal. unfold full_report, first_line, second_line, before_mark, third_line, place.
  rewrite !Nat.sub_0_r, !app_nil_r. 
  destruct (origin_of k); repeat rewrite <- app_assoc; reflexivity.
Qed.

(** ** Alignment *)

Lemma digits_printable : forall n, Forall printable_ascii (show_nat n).
Proof.
  intros n. unfold show_nat. generalize (Nat.to_uint n). intros u.
  assert (D : forall u, Forall printable_ascii (b (DecimalString.NilEmpty.string_of_uint u))).
  { induction u0; simpl; constructor; auto; unfold printable_ascii; simpl; vm_compute; lia. }
  unfold DecimalString.NilZero.string_of_uint. destruct u; try apply D.
  constructor; [unfold printable_ascii; vm_compute; lia|constructor].
Qed.
Lemma gutter_printable : forall n, Forall printable_ascii (gutter n).
Proof.
  intros n. unfold gutter. repeat (apply Forall_app; split); try apply digits_printable;
    repeat constructor; unfold printable_ascii; vm_compute; lia.
Qed.
Lemma repeat_printable : forall c n, printable_ascii c -> Forall printable_ascii (repeat c n).
Proof. intros c n H. induction n; constructor; auto. Qed.

Lemma mark_aligned : forall D n left, ascii_width D ->
  d_width D (before_mark D n left) = d_width D (gutter n ++ b " " ++ left).
Proof.
  intros D n left [A F]. unfold before_mark.
  assert (PS : forall c, In c (b " |~") -> printable_ascii c).
  { intros c H. repeat (destruct H as [<-|H]; [unfold printable_ascii; vm_compute; lia|]). destruct H. }
  rewrite A.
  - rewrite (app_assoc (gutter n) (b " ") left), F.
    + rewrite !app_length, !repeat_length, (A (gutter n)) by apply gutter_printable.
      assert (1 <= length (gutter n)) by (unfold gutter; rewrite !app_length; simpl; lia).
      change (length (b "| ")) with 2. change (length (b " ")) with 1. lia.
    + apply Forall_app. split; [apply gutter_printable|repeat constructor; apply PS; simpl; auto].
  - repeat (apply Forall_app; split); try apply repeat_printable; try (apply PS; simpl; auto).
    repeat constructor; apply PS; simpl; auto.
Qed.

Lemma mark_inside : forall src st left right, site_ok src st ->
  line_at src (s_off st) left right -> ~ In LF (covered src st) -> exists r, right = covered src st ++ r.
Proof.
  intros src st left right O (be & af & E & OFF & N & B & A) NL.
  destruct O as (SE & _). unfold site_end in SE.
  assert (Q : skipn (s_off st) src = right ++ af).
  { rewrite E, app_assoc. apply skipn_pre. exact OFF. }
  assert (C : covered src st = firstn (s_span st) (right ++ af)).
  { unfold covered, site_end, slice. rewrite Q. f_equal. lia. }
  destruct (Nat.le_gt_cases (s_span st) (length right)) as [L|L].
  - exists (skipn (s_span st) right). rewrite C, firstn_app.
    replace (s_span st - length right) with 0 by lia. simpl. rewrite app_nil_r, firstn_skipn. reflexivity.
  - exfalso. destruct A as [->|[z ->]].
    + rewrite app_nil_r in Q. apply (f_equal (@length ascii)) in Q. rewrite skipn_length in Q. lia.
    + apply NL. rewrite C, firstn_app. apply in_or_app. right.
      destruct (s_span st - length right) eqn:Z; [lia|]. left. reflexivity.
Qed.

(** ** Long lines *)

Lemma line_at_single : forall src off left right, ~ In LF src -> line_at src off left right ->
  length left = off.
Proof.
  intros src off left right N (be & af & E & OFF & _ & [->|[x ->]] & _); [rewrite OFF; reflexivity|].
  exfalso. apply N. rewrite E. apply in_or_app. left. apply in_or_app. right. left. reflexivity.
Qed.
