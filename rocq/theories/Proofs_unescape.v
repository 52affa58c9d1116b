(** * The reference escape reader inverts string printing *)

From Coq Require Import String List Ascii Bool Arith NArith ZArith Lia Zify.
From Verif Require Import Text Utf8 Debug Spec_print Proofs_text Proofs_print.
Import ListNotations.

Definition asc (n : N) := ascii_of_N n.

Lemma N_asc : forall n, (n < 256)%N -> N_of_ascii (ascii_of_N n) = n.
Proof. intros. apply N_ascii_embedding; auto. Qed.
Lemma asc_N : forall c, ascii_of_N (N_of_ascii c) = c.
Proof. apply ascii_N_embedding. Qed.
Lemma N_bound : forall c, (N_of_ascii c < 256)%N.
Proof. intros. apply N_ascii_bounded. Qed.
Lemma N_nat : forall c, N_of_ascii c = N.of_nat (nat_of_ascii c).
Proof. intros. unfold nat_of_ascii. rewrite N2Nat.id. reflexivity. Qed.

Lemma cont_range : forall c, is_cont c = true -> (128 <= N_of_ascii c < 192)%N.
Proof. intros [[] [] [] [] [] [] [] []]; simpl; intros H; try discriminate H; lia. Qed.

Lemma between_N : forall lo hi c, between lo hi c = true ->
  (N.of_nat lo <= N_of_ascii c <= N.of_nat hi)%N.
Proof. intros. apply between_le in H. rewrite N_nat. lia. Qed.

Lemma asc_eq : forall n c, n = N_of_ascii c -> ascii_of_N n = c.
Proof. intros. subst. apply asc_N. Qed.

Lemma mod_sub : forall q m a, (q * m <= a < q * m + m)%N -> (a mod m = a - q * m)%N.
Proof. intros q m a H. symmetry. apply (N.mod_unique a m q); lia. Qed.
Lemma div_mod_is : forall m q r, (r < m)%N -> ((m * q + r) / m = q /\ (m * q + r) mod m = r)%N.
Proof.
  intros m q r H. split; symmetry.
  - apply (N.div_unique _ m q r); auto.
  - apply (N.mod_unique _ m q r); auto.
Qed.

Lemma encode_code_point : forall s, utf8_char s = true -> encode (code_point s) = s.
Proof.
  intros s H. unfold utf8_char in H.
  destruct s as [|c [|d [|e [|f [|]]]]]; try discriminate H.
  - apply between_N in H. unfold code_point, encode.
    assert ((N_of_ascii c <? 128)%N = true) as -> by (apply N.ltb_lt; lia).
    rewrite asc_N. reflexivity.
  - apply andb_true_iff in H as [H1 H2]. apply between_N in H1; cbn in H1. apply cont_range in H2.
    unfold code_point, encode, low6, enc6.
    rewrite (mod_sub 6 32), (mod_sub 2 64 (N_of_ascii d)) by lia.
    set (n := ((N_of_ascii c - 6 * 32) * 64 + (N_of_ascii d - 2 * 64))%N).
    assert (En : n = (64 * (N_of_ascii c - 192) + (N_of_ascii d - 128))%N) by (unfold n; lia). clearbody n.
    assert ((n <? 128)%N = false) as -> by (apply N.ltb_ge; lia).
    assert ((n <? 2048)%N = true) as -> by (apply N.ltb_lt; lia).
    destruct (div_mod_is 64 (N_of_ascii c - 192) (N_of_ascii d - 128) ltac:(lia)) as [D M].
    rewrite <- En in D, M. rewrite D, M.
    repeat f_equal; apply asc_eq; lia.
  - assert (R : (224 <= N_of_ascii c < 240 /\ 128 <= N_of_ascii d < 192 /\ 128 <= N_of_ascii e < 192
               /\ (N_of_ascii c = 224 -> 160 <= N_of_ascii d))%N).
    { repeat (apply orb_true_iff in H as [H|H]); apply andb_true_iff in H as [H H3];
      apply andb_true_iff in H as [H1 H2]; apply between_N in H1; cbn in H1; apply cont_range in H3;
      first [apply cont_range in H2|apply between_N in H2; cbn in H2]; lia. }
    clear H. unfold code_point, encode, low6, enc6.
    rewrite (mod_sub 14 16), (mod_sub 2 64 (N_of_ascii d)), (mod_sub 2 64 (N_of_ascii e)) by lia.
    set (n := ((N_of_ascii c - 14 * 16) * 4096 + (N_of_ascii d - 2 * 64) * 64 + (N_of_ascii e - 2 * 64))%N).
    set (p := (64 * (N_of_ascii c - 224) + (N_of_ascii d - 128))%N).
    assert (En : n = (64 * p + (N_of_ascii e - 128))%N) by (unfold n, p; lia).
    assert (E4 : n = (4096 * (N_of_ascii c - 224) + ((N_of_ascii d - 128) * 64 + (N_of_ascii e - 128)))%N)
      by (unfold n; lia).
    clearbody n.
    assert ((n <? 128)%N = false) as -> by (apply N.ltb_ge; lia).
    assert ((n <? 2048)%N = false) as -> by (apply N.ltb_ge; lia).
    assert ((n <? 65536)%N = true) as -> by (apply N.ltb_lt; lia).
    destruct (div_mod_is 64 p (N_of_ascii e - 128) ltac:(lia)) as [D M].
    destruct (div_mod_is 64 (N_of_ascii c - 224) (N_of_ascii d - 128) ltac:(lia)) as [D' M'].
    fold p in D', M'.
    destruct (div_mod_is 4096 (N_of_ascii c - 224) ((N_of_ascii d - 128) * 64 + (N_of_ascii e - 128)) ltac:(lia)) as [D4 _].
    rewrite <- En in D, M. rewrite <- E4 in D4. rewrite D, M, M', D4.
    repeat f_equal; apply asc_eq; lia.
  - assert (R : (240 <= N_of_ascii c < 245 /\ 128 <= N_of_ascii d < 192 /\ 128 <= N_of_ascii e < 192
               /\ 128 <= N_of_ascii f < 192
               /\ (N_of_ascii c = 240 -> 144 <= N_of_ascii d))%N).
    { repeat (apply orb_true_iff in H as [H|H]); apply andb_true_iff in H as [H H4];
      apply andb_true_iff in H as [H H3];
      apply andb_true_iff in H as [H1 H2]; apply between_N in H1; cbn in H1; apply cont_range in H3, H4;
      first [apply cont_range in H2|apply between_N in H2; cbn in H2]; lia. }
    clear H. unfold code_point, encode, low6, enc6.
    rewrite (mod_sub 30 8), (mod_sub 2 64 (N_of_ascii d)), (mod_sub 2 64 (N_of_ascii e)),
      (mod_sub 2 64 (N_of_ascii f)) by lia.
    set (n := ((N_of_ascii c - 30 * 8) * 262144 + (N_of_ascii d - 2 * 64) * 4096
               + (N_of_ascii e - 2 * 64) * 64 + (N_of_ascii f - 2 * 64))%N).
    set (p := (64 * (N_of_ascii c - 240) + (N_of_ascii d - 128))%N).
    set (q := (64 * p + (N_of_ascii e - 128))%N).
    assert (En : n = (64 * q + (N_of_ascii f - 128))%N) by (unfold n, q, p; lia).
    assert (E4 : n = (4096 * p + ((N_of_ascii e - 128) * 64 + (N_of_ascii f - 128)))%N) by (unfold n, p; lia).
    assert (E8 : n = (262144 * (N_of_ascii c - 240) + ((N_of_ascii d - 128) * 4096
               + (N_of_ascii e - 128) * 64 + (N_of_ascii f - 128)))%N) by (unfold n; lia).
    clearbody n.
    assert ((n <? 128)%N = false) as -> by (apply N.ltb_ge; lia).
    assert ((n <? 2048)%N = false) as -> by (apply N.ltb_ge; lia).
    assert ((n <? 65536)%N = false) as -> by (apply N.ltb_ge; lia).
    destruct (div_mod_is 64 q (N_of_ascii f - 128) ltac:(lia)) as [D M]. rewrite <- En in D, M.
    destruct (div_mod_is 64 p (N_of_ascii e - 128) ltac:(lia)) as [D' M']. fold q in D', M'.
    destruct (div_mod_is 64 (N_of_ascii c - 240) (N_of_ascii d - 128) ltac:(lia)) as [D2 M2]. fold p in D2, M2.
    destruct (div_mod_is 4096 p ((N_of_ascii e - 128) * 64 + (N_of_ascii f - 128)) ltac:(lia)) as [D4 _].
    rewrite <- E4 in D4.
    destruct (div_mod_is 262144 (N_of_ascii c - 240) ((N_of_ascii d - 128) * 4096
               + (N_of_ascii e - 128) * 64 + (N_of_ascii f - 128)) ltac:(lia)) as [D8 _].
    rewrite <- E8 in D8. rewrite D, M, M', D4, M2, D8.
    repeat f_equal; apply asc_eq; lia.
Qed.

Lemma code_point_bound : forall s, (code_point s < 4294967296)%N.
Proof.
  intros s. unfold code_point, low6.
  assert (M : forall a m, (m <> 0 -> a mod m < m)%N) by (intros; apply N.mod_lt; auto).
  destruct s as [|c [|d [|e [|f [|]]]]]; try lia.
  - pose proof (N_bound c). lia.
  - pose proof (M (N_of_ascii c) 32%N). pose proof (M (N_of_ascii d) 64%N). lia.
  - pose proof (M (N_of_ascii c) 16%N). pose proof (M (N_of_ascii d) 64%N).
    pose proof (M (N_of_ascii e) 64%N). lia.
  - pose proof (M (N_of_ascii c) 8%N). pose proof (M (N_of_ascii d) 64%N).
    pose proof (M (N_of_ascii e) 64%N). pose proof (M (N_of_ascii f) 64%N). lia.
Qed.

(** Hexadecimal digits. *)
Lemma hex_value_digit : forall n, (n < 16)%N -> hex_value (hex_digit n) = n /\ ch (hex_digit n) "}" = false.
Proof.
  intros n H.
  assert (A : forallb (fun i => N.eqb (hex_value (hex_digit (N.of_nat i))) (N.of_nat i)
     && negb (ch (hex_digit (N.of_nat i)) "}")) (seq 0 16) = true) by reflexivity.
  rewrite forallb_forall in A. specialize (A (N.to_nat n)). rewrite N2Nat.id, in_seq in A.
  specialize (A ltac:(lia)). apply andb_true_iff in A as [A B]. apply N.eqb_eq in A.
  apply negb_true_iff in B. auto.
Qed.

Definition digits_value := fold_left (fun v c => (v * 16 + hex_value c)%N).

Lemma digits_value_acc : forall l v, (digits_value l v = v * 16 ^ N.of_nat (length l) + digits_value l 0)%N.
Proof.
  induction l as [|c l IH]; intros v; [simpl; lia|].
  change (digits_value (c :: l) v) with (digits_value l (v * 16 + hex_value c)%N).
  change (digits_value (c :: l) 0) with (digits_value l (0 * 16 + hex_value c)%N).
  rewrite IH, (IH (0 * 16 + hex_value c)%N). cbn [length].
  rewrite Nat2N.inj_succ, N.pow_succ_r'. lia.
Qed.
Lemma hex_aux_value : forall fuel n acc, (n < 16 ^ N.of_nat fuel)%N -> fuel <> 0 ->
  digits_value (hex_aux fuel n acc) 0 = (n * 16 ^ N.of_nat (length acc) + digits_value acc 0)%N.
Proof.
  induction fuel as [|fuel IH]; intros n acc Hn F; [congruence|].
  cbn [hex_aux]. destruct (n <? 16)%N eqn:E.
  - apply N.ltb_lt in E. rewrite N.mod_small by auto.
    change (digits_value (hex_digit n :: acc) 0) with (digits_value acc (0 * 16 + hex_value (hex_digit n))%N).
    destruct (hex_value_digit n E) as [-> _]. rewrite digits_value_acc. lia.
  - apply N.ltb_ge in E. replace (N.of_nat (S fuel)) with (N.succ (N.of_nat fuel)) in Hn by lia.
    rewrite N.pow_succ_r' in Hn. rewrite IH.
    + assert (M : (n mod 16 < 16)%N) by (apply N.mod_lt; discriminate).
      change (digits_value (hex_digit (n mod 16) :: acc) 0)
        with (digits_value acc (0 * 16 + hex_value (hex_digit (n mod 16)))%N).
      destruct (hex_value_digit _ M) as [-> _].
      rewrite (digits_value_acc acc (0 * 16 + n mod 16)). cbn [length].
      rewrite Nat2N.inj_succ, N.pow_succ_r'. pose proof (N.div_mod n 16 ltac:(discriminate)).
      set (P := (16 ^ N.of_nat (length acc))%N) in *. clearbody P.
      replace (n * P)%N with ((16 * (n / 16) + n mod 16) * P)%N by (rewrite <- H; auto). ring.
    + apply N.div_lt_upper_bound; [discriminate|auto].
    + destruct fuel; [simpl in Hn; lia|congruence].
Qed.
Lemma hex_value_ok : forall n, (n < 4294967296)%N -> digits_value (hex n) 0 = n.
Proof.
  intros n H. unfold hex. rewrite hex_aux_value;
    [|replace (16 ^ N.of_nat 8)%N with 4294967296%N by reflexivity; exact H|discriminate].
  change (digits_value [] 0) with 0%N. simpl length. change (16 ^ N.of_nat 0)%N with 1%N. lia.
Qed.
Lemma hex_aux_no_brace : forall fuel n acc, Forall (fun c => ch c "}" = false) acc ->
  Forall (fun c => ch c "}" = false) (hex_aux fuel n acc).
Proof.
  induction fuel as [|fuel IH]; intros n acc F; simpl; auto.
  assert (M : (n mod 16 < 16)%N) by (apply N.mod_lt; discriminate).
  destruct (hex_value_digit _ M) as [_ D].
  destruct (n <? 16)%N; [|apply IH]; constructor; auto.
Qed.

Lemma digits_read : forall l v t, Forall (fun c => ch c "}" = false) l ->
  ref_unescape_from (Digits v) (l ++ "}"%char :: t)
    = option_map (app (encode (digits_value l v))) (ref_unescape_from Normal t).
Proof.
  induction l as [|c l IH]; intros v t F; [reflexivity|].
  inversion F; subst. cbn [app ref_unescape_from]. rewrite H1, IH by auto. reflexivity.
Qed.

Lemma unicode_escape_read : forall s t, utf8_char s = true ->
  ref_unescape_from Normal (unicode_escape s ++ t) = option_map (app s) (ref_unescape_from Normal t).
Proof.
  intros s t U. unfold unicode_escape. rewrite <- !app_assoc.
  change (b "\u{" ++ hex (code_point s) ++ b "}" ++ t)
    with (BS :: "u"%char :: "{"%char :: (hex (code_point s) ++ "}"%char :: t)).
  cbn [ref_unescape_from]. change (ch BS BS) with true. cbv iota.
  change (ch "u" "u") with true. cbv iota. change (ch "{" "{") with true. cbv iota.
  rewrite digits_read by (apply hex_aux_no_brace; constructor).
  rewrite hex_value_ok by apply code_point_bound. rewrite encode_code_point by auto. reflexivity.
Qed.

Lemma debug_ascii_read : forall c t, between 0 127 c = true ->
  ref_unescape_from Normal (debug_ascii c ++ t) = option_map (cons c) (ref_unescape_from Normal t).
Proof.
  intros c t E. unfold debug_ascii.
  repeat match goal with
  | |- context [if ch ?c ?d then _ else _] =>
      let H := fresh in destruct (ch c d) eqn:H; [apply ch_eq in H; subst; reflexivity|]
  end.
  destruct (between 32 126 c).
  - cbn [app ref_unescape_from]. rewrite H4. reflexivity.
  - rewrite unicode_escape_read; auto.
Qed.

Lemma plain_read : forall s t, Forall (fun c => ch c BS = false) s ->
  ref_unescape_from Normal (s ++ t) = option_map (app s) (ref_unescape_from Normal t).
Proof.
  induction s as [|c s IH]; intros t F; simpl.
  - destruct (ref_unescape_from Normal t); reflexivity.
  - inversion F; subst. rewrite H1, IH by auto. destruct (ref_unescape_from Normal t); reflexivity.
Qed.

Theorem ref_unescape_debug : forall printable v, utf8 v ->
  ref_unescape (debug_body printable v) = Some v.
Proof.
  intros printable v. unfold ref_unescape, debug_body.
  assert (G : forall fuel v, utf8 v -> length v <= fuel ->
    ref_unescape_from Normal (debug_chars printable fuel v) = Some v); [|intros; apply G; auto].
  induction fuel as [|fuel IH]; intros s U L; [destruct s; [reflexivity|simpl in L; lia]|].
  destruct s as [|c r]; [reflexivity|]. cbn [debug_chars].
  destruct (utf8_cons_inv c r U) as (ks & r' & -> & UC & Ur & NC & FK & D).
  simpl in L. rewrite app_length in L.
  destruct (between 0 127 c) eqn:E.
  - destruct D as [[_ ->]|[H _]]; [|apply between_le in E; lia].
    rewrite debug_ascii_read by auto. simpl app. rewrite IH; auto; lia.
  - rewrite take_cont_app by auto using utf8_boundary.
    assert (T : ref_unescape_from Normal (debug_chars printable fuel r') = Some r') by (apply IH; auto; lia).
    destruct (printable (c :: ks)).
    + rewrite plain_read, T; [reflexivity|].
      assert (HI : forall x, 127 < nat_of_ascii x -> ch x BS = false).
      { intros x Hx. apply ch_neq. intros ->. vm_compute in Hx. lia. }
      constructor; [apply HI, not_low; auto|]. eapply Forall_impl; [|exact FK]. intros; apply HI, cont_high; auto.
    + rewrite unicode_escape_read, T by auto. reflexivity.
Qed.
