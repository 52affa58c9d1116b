(** * Lemmas on byte strings and UTF-8 *)

From Coq Require Import List Ascii Bool Arith Lia.
From Verif Require Import Text Utf8.
Import ListNotations.

Lemma ch_eq : forall c d, ch c d = true <-> c = d.
Proof. exact Ascii.eqb_eq. Qed.
Lemma ch_neq : forall c d, ch c d = false <-> c <> d.
Proof. exact Ascii.eqb_neq. Qed.
Lemma ch_refl : forall c, ch c c = true.
Proof. exact Ascii.eqb_refl. Qed.

Lemma beq_eq : forall x y, beq x y = true <-> x = y.
Proof.
  induction x as [|c x IH]; destruct y as [|d y]; simpl; try (split; congruence).
  rewrite andb_true_iff, Ascii.eqb_eq, IH. split.
  - intros [-> ->]; reflexivity.
  - intros H; inversion H; auto.
Qed.
Lemma beq_refl : forall x, beq x x = true.
Proof. intros; apply beq_eq; reflexivity. Qed.
Lemma beq_neq : forall x y, beq x y = false <-> x <> y.
Proof.
  intros x y. split; intros H.
  - intros E. apply beq_eq in E. congruence.
  - destruct (beq x y) eqn:E; auto. apply beq_eq in E. contradiction.
Qed.

Lemma starts_with_iff : forall p s, starts_with p s = true <-> exists r, s = p ++ r.
Proof.
  induction p as [|c p IH]; intros s; simpl.
  - split; eauto.
  - destruct s as [|d s].
    + split; [congruence|]. intros [r H]; discriminate.
    + rewrite andb_true_iff, Ascii.eqb_eq, IH. split.
      * intros [-> [r ->]]. eauto.
      * intros [r H]. inversion H; subst. eauto.
Qed.

Lemma has_iff : forall c s, has c s = true <-> In c s.
Proof.
  intros c s. unfold has. rewrite existsb_exists. split.
  - intros (x & Hin & E). apply Ascii.eqb_eq in E. subst; auto.
  - intros H. exists c. split; auto. apply Ascii.eqb_refl.
Qed.

Lemma newlines_app : forall x y, newlines (x ++ y) = newlines x + newlines y.
Proof. intros. unfold newlines. apply count_occ_app. Qed.
Lemma newlines_cons : forall c x,
  newlines (c :: x) = (if ch c LF then 1 else 0) + newlines x.
Proof.
  intros. unfold newlines. simpl.
  destruct (ascii_dec c LF) as [->|N].
  - rewrite ch_refl. reflexivity.
  - apply ch_neq in N. rewrite N. reflexivity.
Qed.
Lemma newlines_none : forall x, ~ In LF x -> newlines x = 0.
Proof. intros x H. unfold newlines. apply count_occ_not_In. exact H. Qed.
Lemma newlines_zero : forall x, newlines x = 0 -> ~ In LF x.
Proof. intros x H. unfold newlines in H. apply count_occ_not_In in H. exact H. Qed.

(** ** UTF-8 *)

Lemma is_cont_between : forall c, is_cont c = between 128 191 c.
Proof. intros [[] [] [] [] [] [] [] []]; reflexivity. Qed.

Definition non_ascii (c : ascii) : Prop := 128 <= nat_of_ascii c.

Lemma between_iff : forall lo hi c,
  between lo hi c = true <-> lo <= nat_of_ascii c <= hi.
Proof.
  intros. unfold between. rewrite andb_true_iff, !Nat.leb_le. tauto.
Qed.

Lemma is_cont_iff : forall c, is_cont c = true <-> 128 <= nat_of_ascii c <= 191.
Proof. intros. rewrite is_cont_between. apply between_iff. Qed.

(** Shape of one encoded character. *)
Lemma utf8_char_shape : forall s, utf8_char s = true ->
  exists c ks, s = c :: ks /\ is_cont c = false /\
    Forall (fun k => is_cont k = true) ks /\
    ((nat_of_ascii c <= 127 /\ ks = []) \/ (128 <= nat_of_ascii c /\ ks <> [])).
Proof.
  intros s H.
  assert (NC : forall c, is_cont c = false <-> nat_of_ascii c < 128 \/ 191 < nat_of_ascii c).
  { intros c. destruct (is_cont c) eqn:E.
    - apply is_cont_iff in E. split; [congruence|lia].
    - split; auto. intros _. destruct (Nat.lt_ge_cases (nat_of_ascii c) 128); auto.
      destruct (Nat.lt_ge_cases 191 (nat_of_ascii c)); auto.
      assert (is_cont c = true) by (apply is_cont_iff; lia). congruence. }
  assert (BC : forall lo hi c, 128 <= lo -> hi <= 191 -> between lo hi c = true -> is_cont c = true).
  { intros lo hi c H1 H2 H3. apply between_iff in H3. apply is_cont_iff. lia. }
  destruct s as [|c [|d [|e [|f [|]]]]]; simpl in H; try discriminate.
  - exists c, []. apply between_iff in H. repeat split; auto. apply NC; lia. left; split; auto; lia.
  - apply andb_true_iff in H as [H1 H2]. apply between_iff in H1.
    exists c, [d]. repeat split; auto. apply NC; lia. right; split; [lia|discriminate].
  - rewrite !orb_true_iff, !andb_true_iff in H.
    exists c, [d; e].
    destruct H as [[[[[H1 H2] H3]|[[H1 H2] H3]]|[[H1 H2] H3]]|[[H1 H2] H3]];
      apply between_iff in H1;
      (repeat split; [apply NC; lia| |right; split; [lia|discriminate]]);
      repeat constructor; auto; eapply BC; try exact H2; lia.
  - rewrite !orb_true_iff, !andb_true_iff in H.
    exists c, [d; e; f].
    destruct H as [[[[[H1 H2] H3] H4]|[[[H1 H2] H3] H4]]|[[[H1 H2] H3] H4]];
      apply between_iff in H1;
      (repeat split; [apply NC; lia| |right; split; [lia|discriminate]]);
      repeat constructor; auto; eapply BC; try exact H2; lia.
Qed.

(** First character of a non-empty UTF-8 text. *)
Lemma utf8_cons_inv : forall c r, utf8 (c :: r) ->
  exists ks r', r = ks ++ r' /\ utf8_char (c :: ks) = true /\ utf8 r' /\
    is_cont c = false /\ Forall (fun k => is_cont k = true) ks /\
    ((nat_of_ascii c <= 127 /\ ks = []) \/ (128 <= nat_of_ascii c /\ ks <> [])).
Proof.
  intros c r H. inversion H as [|x s Hc Hs E]; subst.
  destruct (utf8_char_shape x Hc) as (c' & ks & -> & NC & FK & D).
  simpl in E. inversion E; subst. exists ks, s. repeat split; auto.
Qed.

Lemma utf8_head_not_cont : forall c r, utf8 (c :: r) -> is_cont c = false.
Proof. intros c r H. destruct (utf8_cons_inv c r H) as (ks & r' & _ & _ & _ & NC & _). exact NC. Qed.

Lemma utf8_app2 : forall x y, utf8 x -> utf8 y -> utf8 (x ++ y).
Proof.
  intros x y H. induction H as [|c s Hc Hs IH]; intros Hy; auto.
  rewrite <- app_assoc. constructor; auto.
Qed.

Lemma utf8_ascii_cons : forall c r, nat_of_ascii c <= 127 -> utf8 r -> utf8 (c :: r).
Proof.
  intros c r H Hr. change (c :: r) with ([c] ++ r). constructor; auto.
  simpl. apply between_iff. lia.
Qed.

Lemma utf8_ascii_tail : forall c r, nat_of_ascii c <= 127 -> utf8 (c :: r) -> utf8 r.
Proof.
  intros c r H Hu. destruct (utf8_cons_inv c r Hu) as (ks & r' & -> & _ & Hr & _ & _ & [[_ ->]|[H1 _]]).
  - exact Hr.
  - lia.
Qed.

Lemma forall_cont_app_eq : forall ks x y1 y2,
  Forall (fun k => is_cont k = true) ks ->
  ks ++ x = y1 ++ y2 -> (match y2 with [] => True | d :: _ => is_cont d = false end) ->
  exists ks2, y1 = ks ++ ks2 /\ x = ks2 ++ y2.
Proof.
  induction ks as [|k ks IH]; intros x y1 y2 F E N.
  - exists y1. split; [reflexivity|exact E].
  - inversion F; subst. destruct y1 as [|d y1].
    + simpl in E. subst y2. simpl in N. congruence.
    + simpl in E. inversion E; subst. destruct (IH _ _ _ H2 H3 N) as (k2 & -> & ->). exists k2. split; reflexivity.
Qed.

(** A UTF-8 text cut in front of a non-continuation byte gives two UTF-8
    texts. *)
Definition boundary (rest : bytes) : Prop :=
  match rest with [] => True | d :: _ => is_cont d = false end.

Lemma utf8_split : forall x y, utf8 (x ++ y) -> boundary y -> utf8 x /\ utf8 y.
Proof.
  intros x y H. remember (x ++ y) as s eqn:E. revert x y E.
  induction H as [|c s Hc Hs IH]; intros x y E B.
  - symmetry in E. apply app_eq_nil in E as [-> ->]. split; constructor.
  - destruct (utf8_char_shape c Hc) as (c0 & ks & -> & NC & FK & D).
    destruct x as [|d x].
    + simpl in E. subst y. split; [constructor|]. simpl. 
      change (c0 :: ks ++ s) with ((c0 :: ks) ++ s). constructor; auto.
    + simpl in E. inversion E; subst d.
      destruct (forall_cont_app_eq _ _ _ _ FK H1 B) as (k2 & -> & E2).
      destruct (IH _ _ E2 B) as [U1 U2]. split; auto.
      change (c0 :: ks ++ k2) with ((c0 :: ks) ++ k2). constructor; auto.
Qed.

Lemma utf8_boundary : forall y, utf8 y -> boundary y.
Proof. intros [|c y] H; simpl; auto. eapply utf8_head_not_cont; eauto. Qed.
