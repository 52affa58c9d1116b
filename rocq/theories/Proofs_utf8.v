(** * Valid UTF-8 is a sequence of encoded characters *)

From Coq Require Import String List Ascii Bool Arith NArith Lia.
From Verif Require Import Text Utf8 Debug Spec_print Proofs_text Proofs_unescape Proofs_white.
Import ListNotations.

Lemma between_of lo hi n : (n < 256)%N -> lo <= N.to_nat n <= hi -> between lo hi (ascii_of_N n) = true.
Proof.
  intros B [L H]. unfold between. assert (Q : nat_of_ascii (ascii_of_N n) = N.to_nat n).
  { unfold nat_of_ascii. rewrite N_asc by exact B. reflexivity. }
  rewrite Q. apply andb_true_iff; split; apply Nat.leb_le; lia.
Qed.

Lemma cont_of n : (128 <= n < 192)%N -> is_cont (ascii_of_N n) = true.
Proof.
  intros H. pose proof (N_asc n ltac:(lia)) as Q. destruct (ascii_of_N n) as [[] [] [] [] [] [] [] []]; cbn in Q |- *; try reflexivity; lia.
Qed.

Lemma scalar_char n : scalar_value n -> utf8_char (encode n) = true.
Proof.
  intros V. unfold scalar_value in V. unfold encode, enc6.
  assert (M : forall a, (a mod 64 < 64)%N) by (intros; apply N.mod_lt; discriminate).
  assert (DM : forall a, a = (64 * (a / 64) + a mod 64)%N) by (intros; apply N.div_mod; discriminate).
  assert (D2 : (n / 4096 = n / 64 / 64)%N) by (rewrite N.div_div by discriminate; reflexivity).
  assert (D3 : (n / 262144 = n / 4096 / 64)%N) by (rewrite N.div_div by discriminate; reflexivity).
  pose proof (DM n) as E1. pose proof (DM (n / 64)%N) as E2. pose proof (DM (n / 4096)%N) as E3.
  rewrite <- D2 in E2. rewrite <- D3 in E3.
  pose proof (M n) as M1. pose proof (M (n / 64)%N) as M2. pose proof (M (n / 4096)%N) as M3.
  destruct (N.ltb_spec n 128); [apply between_of; lia|].
  destruct (N.ltb_spec n 2048); [|destruct (N.ltb_spec n 65536)]; cbn [utf8_char];
  set (r1 := (n mod 64)%N) in *; set (r2 := (n / 64 mod 64)%N) in *; set (r3 := (n / 4096 mod 64)%N) in *;
  set (q1 := (n / 64)%N) in *; set (q2 := (n / 4096)%N) in *; set (q3 := (n / 262144)%N) in *;
  clearbody r1 r2 r3 q1 q2 q3; clear DM M D2 D3.
  - rewrite between_of, cont_of by lia. reflexivity.
  - rewrite (cont_of (128 + r1)), (cont_of (128 + r2)), !andb_true_r by lia.
    assert (C : (q2 = 0 \/ 1 <= q2 <= 12 \/ q2 = 13 \/ 14 <= q2 <= 15)%N) by lia.
    rewrite !orb_true_iff, !andb_true_iff.
    destruct C as [C|[C|[C|C]]]; [left; left; left; split|left; left; right|left; right; split|right]; apply between_of; lia.
  - rewrite (cont_of (128 + r1)), (cont_of (128 + r2)), (cont_of (128 + r3)), !andb_true_r by lia.
    assert (C : (q3 = 0 \/ 1 <= q3 <= 3 \/ q3 = 4)%N) by lia.
    rewrite !orb_true_iff, !andb_true_iff.
    destruct C as [C|[C|C]]; [left; left; split|left; right|right; split]; apply between_of; lia.
Qed.

Lemma char_scalar s : utf8_char s = true -> scalar_value (code_point s).
Proof.
  intros H. unfold scalar_value, utf8_char in *.
  destruct s as [|c [|d [|e [|f [|]]]]]; try discriminate H.
  - apply between_N in H. cbn [code_point]. cbn in H. lia.
  - apply andb_true_iff in H as [H1 H2]. apply between_N in H1; cbn in H1. apply cont_range in H2.
    unfold code_point, low6. rewrite (mod_sub 6 32), (mod_sub 2 64 (N_of_ascii d)) by lia. lia.
  - assert (R : (224 <= N_of_ascii c < 240 /\ 128 <= N_of_ascii d < 192 /\ 128 <= N_of_ascii e < 192
               /\ (N_of_ascii c = 237 -> N_of_ascii d <= 159))%N).
    { repeat (apply orb_true_iff in H as [H|H]); apply andb_true_iff in H as [H H3];
      apply andb_true_iff in H as [H1 H2]; apply between_N in H1; cbn in H1; apply cont_range in H3;
      first [apply cont_range in H2|apply between_N in H2; cbn in H2]; lia. }
    unfold code_point, low6.
    rewrite (mod_sub 14 16), (mod_sub 2 64 (N_of_ascii d)), (mod_sub 2 64 (N_of_ascii e)) by lia. lia.
  - pose proof (code_point_low [c; d; e; f] H) as L. right. split; [|exact L].
    assert (R : (240 <= N_of_ascii c < 245 /\ 128 <= N_of_ascii d < 192 /\ 128 <= N_of_ascii e < 192
               /\ 128 <= N_of_ascii f < 192
               /\ (N_of_ascii c = 240 -> 144 <= N_of_ascii d))%N).
    { repeat (apply orb_true_iff in H as [H|H]); apply andb_true_iff in H as [H H4];
      apply andb_true_iff in H as [H H3];
      apply andb_true_iff in H as [H1 H2]; apply between_N in H1; cbn in H1; apply cont_range in H3, H4;
      first [apply cont_range in H2|apply between_N in H2; cbn in H2]; lia. }
    clear L. unfold code_point, low6.
    rewrite (mod_sub 30 8), (mod_sub 2 64 (N_of_ascii d)), (mod_sub 2 64 (N_of_ascii e)),
      (mod_sub 2 64 (N_of_ascii f)) by lia. lia.
Qed.

Lemma char_iff s : utf8_char s = true <-> exists n, scalar_value n /\ s = encode n.
Proof.
  split; [intros H; exists (code_point s); split; [apply char_scalar, H|symmetry; apply encode_code_point, H]|].
  intros [n [V ->]]. apply scalar_char, V.
Qed.

Lemma chars_iff s : utf8 s <-> exists l, Forall scalar_value l /\ s = flat_map encode l.
Proof.
  split.
  - induction 1 as [|c s H _ [l [F ->]]]; [exists []; auto|].
    apply char_iff in H as [n [V ->]]. exists (n :: l). auto.
  - intros [l [F ->]]. induction F as [|n l V F IH]; [constructor|]. apply utf8_app; [apply scalar_char, V|exact IH].
Qed.
