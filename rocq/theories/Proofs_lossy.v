(** * Proofs about reading bytes that may not be text *)

From Coq Require Import List Ascii Bool Arith Lia.
From Verif Require Import Text Utf8 Lossy Spec_lossy Proofs_text.
Import ListNotations.

Lemma cont_between c : is_cont c = between 128 191 c.
Proof. destruct c as [[] [] [] [] [] [] [] []]; reflexivity. Qed.

Notation "# c" := (nat_of_ascii c) (at level 1, format "# c").
Definition lead2 (c : ascii) : Prop := 194 <= #c <= 223.
Definition pair3 (c d : ascii) : Prop :=
  #c = 224 /\ 160 <= #d <= 191 \/ 225 <= #c <= 236 /\ 128 <= #d <= 191 \/
  #c = 237 /\ 128 <= #d <= 159 \/ 238 <= #c <= 239 /\ 128 <= #d <= 191.
Definition pair4 (c d : ascii) : Prop :=
  #c = 240 /\ 144 <= #d <= 191 \/ 241 <= #c <= 243 /\ 128 <= #d <= 191 \/ #c = 244 /\ 128 <= #d <= 143.
Definition cont (d : ascii) : Prop := 128 <= #d <= 191.

Ltac plain_bool := rewrite ?cont_between, ?orb_true_iff, ?andb_true_iff, ?between_iff.
Lemma char1 c : utf8_char [c] = true <-> #c <= 127.
Proof. cbn [utf8_char]. plain_bool. lia. Qed.
Lemma char2 c d : utf8_char [c; d] = true <-> lead2 c /\ cont d.
Proof. cbn [utf8_char]. plain_bool. unfold lead2, cont. lia. Qed.
Lemma char3 c d e : utf8_char [c; d; e] = true <-> pair3 c d /\ cont e.
Proof. cbn [utf8_char]. plain_bool. unfold pair3, cont. lia. Qed.
Lemma char4 c d e f : utf8_char [c; d; e; f] = true <-> pair4 c d /\ cont e /\ cont f.
Proof. cbn [utf8_char]. plain_bool. unfold pair4, cont. lia. Qed.
Lemma char_length s : utf8_char s = true -> 1 <= length s <= 4.
Proof. destruct s as [|c [|d [|e [|f [|g s]]]]]; cbn; try discriminate; lia. Qed.

Lemma prefix_begins p q : begins_char (p ++ q) -> begins_char p.
Proof. intros [r H]. exists (q ++ r). rewrite app_assoc. exact H. Qed.
Lemma begins_length p : begins_char p -> length p <= 4.
Proof. intros [q H]. apply char_length in H. rewrite app_length in H. lia. Qed.
Lemma begins2 c d : begins_char [c; d] -> lead2 c /\ cont d \/ pair3 c d \/ pair4 c d.
Proof.
  intros [q H]. pose proof (char_length _ H) as L. destruct q as [|e [|f [|g q]]]; cbn in L; try lia; cbn [app] in H.
  - apply char2 in H. tauto.
  - apply char3 in H. tauto.
  - apply char4 in H. tauto.
Qed.
Lemma begins3 c d e : begins_char [c; d; e] -> (pair3 c d \/ pair4 c d) /\ cont e.
Proof.
  intros [q H]. pose proof (char_length _ H) as L. destruct q as [|f [|g q]]; cbn in L; try lia; cbn [app] in H.
  - apply char3 in H. tauto.
  - apply char4 in H. tauto.
Qed.
Lemma begins4 c d e f : begins_char [c; d; e; f] -> utf8_char [c; d; e; f] = true.
Proof.
  intros [q H]. pose proof (char_length _ H) as L. destruct q as [|g q]; cbn in L; try lia. exact H.
Qed.
Definition x80 : ascii := ascii_of_nat 128.
Lemma pair3_begins c d : pair3 c d -> begins_char [c; d].
Proof. intros H. exists [x80]. cbn [app]. apply char3. split; [exact H|]. unfold cont. cbn. lia. Qed.
Lemma pair4_begins c d : pair4 c d -> begins_char [c; d].
Proof. intros H. exists [x80; x80]. cbn [app]. apply char4. split; [exact H|]. unfold cont. cbn. lia. Qed.
Lemma pair4_begins3 c d e : pair4 c d -> cont e -> begins_char [c; d; e].
Proof. intros H G. exists [x80]. cbn [app]. apply char4. split; [exact H|]. split; [exact G|]. unfold cont. cbn. lia. Qed.

(** ** What [scan] finds *)

Inductive scanned : bytes -> bool * nat -> Prop :=
| sc1 c s : #c <= 127 -> scanned (c :: s) (true, 1)
| sc2 c d s : lead2 c -> cont d -> scanned (c :: d :: s) (true, 2)
| sc3 c d e s : pair3 c d -> cont e -> scanned (c :: d :: e :: s) (true, 3)
| sc4 c d e f s : pair4 c d -> cont e -> cont f -> scanned (c :: d :: e :: f :: s) (true, 4)
| sc_bad1 c s : 128 <= #c -> (forall d s', s = d :: s' -> ~ (lead2 c /\ cont d) /\ ~ pair3 c d /\ ~ pair4 c d) ->
    scanned (c :: s) (false, 1)
| sc_bad2 c d s : pair3 c d \/ pair4 c d -> (forall e s', s = e :: s' -> ~ cont e) -> scanned (c :: d :: s) (false, 2)
| sc_bad3 c d e s : pair4 c d -> cont e -> (forall f s', s = f :: s' -> ~ cont f) -> scanned (c :: d :: e :: s) (false, 3).

Lemma if_cases (x : bool) {A} (y z : A) (P : A -> Prop) : (x = true -> P y) -> (x <> true -> P z) -> P (if x then y else z).
Proof. intros Y Z. destruct x; [apply Y; reflexivity|apply Z; discriminate]. Qed.

Lemma scan_scanned s : s <> [] -> scanned s (scan s).
Proof.
  intros N. destruct s as [|c s]; [congruence|]. unfold scan. cbn [nth].
  apply if_cases; plain_bool; intros H1; [constructor; lia|].
  destruct s as [|d s].
  { cbn [nth]. change (nat_of_ascii "000"%char) with 0.
    repeat (apply if_cases; plain_bool; change (nat_of_ascii "000"%char) with 0; intros ?; try (exfalso; lia));
      (apply sc_bad1; [lia|discriminate]). }
  cbn [nth].
  apply if_cases; plain_bool; intros H2.
  { apply if_cases; plain_bool; intros H3; [apply sc2; assumption|].
    apply sc_bad1; [lia|]. intros d' s' Q. injection Q as <- <-. unfold lead2, cont, pair3, pair4. lia. }
  apply if_cases; plain_bool; intros H3.
  { apply if_cases; plain_bool; intros H4.
    - assert (P : pair3 c d) by (unfold pair3; lia). destruct s as [|e s]; cbn [nth].
      + apply if_cases; plain_bool; change (nat_of_ascii "000"%char) with 0; intros H5; [exfalso; lia|].
        apply sc_bad2; [left; exact P|discriminate].
      + apply if_cases; plain_bool; intros H5; [apply sc3; assumption|].
        apply sc_bad2; [left; exact P|]. intros e' s' Q. injection Q as <- <-. exact H5.
    - apply sc_bad1; [lia|]. intros d' s' Q. injection Q as <- <-. unfold lead2, cont, pair3, pair4. lia. }
  apply if_cases; plain_bool; intros H4.
  2: { apply sc_bad1; [lia|]. intros d' s' Q. injection Q as <- <-. unfold lead2, cont, pair3, pair4. lia. }
  apply if_cases; plain_bool; intros H5.
  2: { apply sc_bad1; [lia|]. intros d' s' Q. injection Q as <- <-. unfold lead2, cont, pair3, pair4. lia. }
  assert (P : pair4 c d) by (unfold pair4; lia). destruct s as [|e s]; cbn [nth].
  { apply if_cases; plain_bool; change (nat_of_ascii "000"%char) with 0; intros H6; [exfalso; lia|].
    apply sc_bad2; [right; exact P|discriminate]. }
  apply if_cases; plain_bool; intros H6.
  2: { apply sc_bad2; [right; exact P|]. intros e' s' Q. injection Q as <- <-. exact H6. }
  destruct s as [|f s]; cbn [nth].
  { apply if_cases; plain_bool; change (nat_of_ascii "000"%char) with 0; intros H7; [exfalso; lia|].
    apply sc_bad3; [exact P|exact H6|discriminate]. }
  apply if_cases; plain_bool; intros H7; [apply sc4; assumption|].
  apply sc_bad3; [exact P|exact H6|]. intros f' s' Q. injection Q as <- <-. exact H7.
Qed.

(** Beginnings of characters in front of a text, by length. *)
Lemma front_begins q r s : s = q ++ r -> begins_char q -> forall k, k <= length q -> begins_char (firstn k s).
Proof.
  intros -> B k L. rewrite firstn_app. replace (k - length q) with 0 by lia. rewrite firstn_O, app_nil_r.
  apply (prefix_begins _ (skipn k q)). rewrite firstn_skipn. exact B.
Qed.
Lemma bad_piece s k : scanned s (false, k) ->
  (begins_char (firstn k s) /\ firstn k s <> [] \/ length (firstn k s) = 1) /\ length (firstn k s) = k /\
  (forall q r, s = q ++ r -> begins_char q -> length q <= k) /\
  (forall c r, s = c ++ r -> utf8_char c = false).
Proof.
  intros H. inversion H as [| | | |c s0 HA H3|c d s0 H2 H3|c d e s0 H2 HC H4]; subst; cbn [firstn].
  - assert (M : forall q r, c :: s0 = q ++ r -> begins_char q -> length q <= 1).
    { intros q r Q B. destruct (le_lt_dec (length q) 1) as [L|L]; [exact L|exfalso].
      pose proof (front_begins q r _ Q B 2 L) as F. destruct s0 as [|d s0].
      - apply (f_equal (@length _)) in Q. rewrite app_length in Q. cbn in Q. lia.
      - cbn [firstn] in F. apply begins2 in F. destruct (H3 _ _ eq_refl). tauto. }
    split; [right; reflexivity|]. split; [reflexivity|]. split; [exact M|].
    intros q r Q. destruct (utf8_char q) eqn:U; [exfalso|reflexivity].
    pose proof (M q r Q (ex_intro _ [] (eq_trans (f_equal _ (app_nil_r q)) U))) as L.
    destruct q as [|x [|y q]]; [discriminate U| |cbn in L; lia]. injection Q as <- _. apply char1 in U. lia.
  - assert (M : forall q r, c :: d :: s0 = q ++ r -> begins_char q -> length q <= 2).
    { intros q r Q B. destruct (le_lt_dec (length q) 2) as [L|L]; [exact L|exfalso].
      pose proof (front_begins q r _ Q B 3 L) as F. destruct s0 as [|e s0].
      - apply (f_equal (@length _)) in Q. rewrite app_length in Q. cbn in Q. lia.
      - cbn [firstn] in F. apply begins3 in F. apply (H3 _ _ eq_refl). tauto. }
    split; [left; split; [|discriminate]; destruct H2; [apply pair3_begins|apply pair4_begins]; assumption|].
    split; [reflexivity|]. split; [exact M|].
    intros q r Q. destruct (utf8_char q) eqn:U; [exfalso|reflexivity].
    pose proof (M q r Q (ex_intro _ [] (eq_trans (f_equal _ (app_nil_r q)) U))) as L.
    destruct q as [|x [|y [|z q]]]; [discriminate U| | |cbn in L; lia].
    + injection Q as <- _. apply char1 in U. unfold pair3, pair4 in H2. lia.
    + injection Q as <- <- _. apply char2 in U. unfold pair3, pair4, lead2 in *. lia.
  - assert (M : forall q r, c :: d :: e :: s0 = q ++ r -> begins_char q -> length q <= 3).
    { intros q r Q B. destruct (le_lt_dec (length q) 3) as [L|L]; [exact L|exfalso].
      pose proof (front_begins q r _ Q B 4 L) as F. destruct s0 as [|f s0].
      - apply (f_equal (@length _)) in Q. rewrite app_length in Q. cbn in Q. lia.
      - cbn [firstn] in F. apply begins4, char4 in F. apply (H4 _ _ eq_refl). tauto. }
    split; [left; split; [apply pair4_begins3; assumption|discriminate]|].
    split; [reflexivity|]. split; [exact M|].
    intros q r Q. destruct (utf8_char q) eqn:U; [exfalso|reflexivity].
    pose proof (M q r Q (ex_intro _ [] (eq_trans (f_equal _ (app_nil_r q)) U))) as L.
    destruct q as [|x [|y [|z [|? q]]]]; [discriminate U| | | |cbn in L; lia].
    + injection Q as <- _. apply char1 in U. unfold pair4 in H2. lia.
    + injection Q as <- <- _. apply char2 in U. unfold pair4, lead2 in *. lia.
    + injection Q as <- <- <- _. apply char3 in U. unfold pair3, pair4 in *. lia.
Qed.
Lemma good_piece s k : scanned s (true, k) -> utf8_char (firstn k s) = true /\ 1 <= k <= length s.
Proof.
  intros H. inversion H; subst; cbn [firstn length]; (split; [|lia]).
  - apply char1. assumption.
  - apply char2. auto.
  - apply char3. auto.
  - apply char4. auto.
Qed.

Lemma lossy_legible s : Legible s (lossy s).
Proof.
  unfold lossy. assert (L : length s <= length s) by lia. revert L. generalize (length s) at 2 3 as fuel.
  intros fuel. revert s. induction fuel as [|fuel IH]; intros s L.
  - destruct s; [constructor|cbn in L; lia].
  - destruct s as [|c s]; [constructor|]. remember (c :: s) as x eqn:X. assert (N : x <> []) by (subst; discriminate).
    assert (R : lossy_loop (S fuel) x = let '(ok, k) := scan x in (if ok then firstn k x else replacement) ++ lossy_loop fuel (skipn k x))
      by (subst; reflexivity).
    rewrite R. pose proof (scan_scanned x N) as S. destruct (scan x) as [[|] k].
    + apply good_piece in S as [U K]. rewrite <- (firstn_skipn k x) at 1. apply lg_char; [exact U|].
      apply IH. rewrite skipn_length. lia.
    + apply bad_piece in S as [B [K [M C]]]. rewrite <- (firstn_skipn k x) at 1. cbn [replacement app].
      assert (K1 : 1 <= k) by (destruct B as [[_ B]|B]; [destruct k; [contradiction|lia]|lia]).
      apply lg_piece.
      * rewrite firstn_skipn. exact C.
      * exact B.
      * rewrite firstn_skipn, K. exact M.
      * apply IH. rewrite skipn_length. lia.
Qed.

Lemma char_prefix c r c' r' : c ++ r = c' ++ r' -> utf8_char c = true -> utf8_char c' = true -> c = c' /\ r = r'.
Proof.
  intros Q U U'. assert (L : length c = length c').
  { pose proof (char_length _ U). pose proof (char_length _ U').
    destruct c as [|c1 [|c2 [|c3 [|c4 [|? ?]]]]]; cbn [length] in *; try lia;
    destruct c' as [|d1 [|d2 [|d3 [|d4 [|? ?]]]]]; cbn [length] in *; try lia; try reflexivity; exfalso;
      cbn [app] in Q; injection Q; intros; subst;
      repeat match goal with
      | H : utf8_char [_] = true |- _ => apply char1 in H
      | H : utf8_char [_; _] = true |- _ => apply char2 in H
      | H : utf8_char [_; _; _] = true |- _ => apply char3 in H
      | H : utf8_char [_; _; _; _] = true |- _ => apply char4 in H
      end; unfold lead2, pair3, pair4 in *; lia. }
  split.
  - apply (f_equal (firstn (length c))) in Q. rewrite firstn_app, firstn_all, Nat.sub_diag, firstn_O, app_nil_r in Q.
    rewrite Q, L, firstn_app, firstn_all, Nat.sub_diag, firstn_O, app_nil_r. reflexivity.
  - apply (f_equal (skipn (length c))) in Q. rewrite skipn_app, skipn_all, Nat.sub_diag in Q. cbn in Q.
    rewrite Q, L, skipn_app, skipn_all, Nat.sub_diag. reflexivity.
Qed.

Lemma same_front {A} (x y z w : list A) : x ++ y = z ++ w -> length x = length z -> x = z /\ y = w.
Proof.
  revert z. induction x as [|a x IH]; intros [|c z] Q L; try discriminate; [auto|]. cbn in *.
  injection Q as -> Q. injection L as L. destruct (IH _ Q L) as [-> ->]. auto.
Qed.

Lemma legible_fun s t : Legible s t -> forall t', Legible s t' -> t' = t.
Proof.
  induction 1 as [|c s t U H IH|p s t N B M H IH]; intros t' H'.
  - inversion H' as [|c s t2 U2 H2 Q|p s t2 N B M H2 Q]; subst; [reflexivity| |].
    + destruct c; [discriminate U2|discriminate].
    + destruct p; [destruct B as [[_ B]|B]; [congruence|discriminate]|discriminate].
  - inversion H' as [Q Q'|c2 s2 t2 U2 H2 Q|p s2 t2 N B M H2 Q]; subst.
    + destruct c; [discriminate U|discriminate].
    + destruct (char_prefix _ _ _ _ Q U2 U) as [-> ->]. rewrite (IH _ H2). reflexivity.
    + rewrite (N c s Q) in U. discriminate.
  - inversion H' as [Q Q'|c2 s2 t2 U2 H2 Q|p2 s2 t2 N2 B2 M2 H2 Q]; subst.
    + destruct p; [destruct B as [[_ B]|B]; [congruence|discriminate]|discriminate].
    + rewrite (N c2 s2 (eq_sym Q)) in U2. discriminate.
    + assert (L : length p2 = length p).
      { assert (P1 : 1 <= length p) by (destruct B as [[_ B]|B]; [destruct p; [congruence|cbn; lia]|lia]).
        assert (P2 : 1 <= length p2) by (destruct B2 as [[_ B2]|B2]; [destruct p2; [congruence|cbn; lia]|lia]).
        destruct B as [[B _]|B], B2 as [[B2 _]|B2].
        - pose proof (M _ _ (eq_sym Q) B2). pose proof (M2 _ _ Q B). lia.
        - pose proof (M2 _ _ Q B). lia.
        - pose proof (M _ _ (eq_sym Q) B2). lia.
        - lia. }
      destruct (same_front _ _ _ _ Q L) as [-> ->]. rewrite (IH _ H2). reflexivity.
Qed.
Lemma lossy_iff s t : Legible s t <-> t = lossy s.
Proof. split; [intros H; exact (legible_fun _ _ (lossy_legible s) _ H)|intros ->; apply lossy_legible]. Qed.

Lemma legible_utf8 s t : Legible s t -> utf8 t.
Proof.
  induction 1 as [|c s t U H IH|p s t N B M H IH]; [constructor|constructor; assumption|].
  apply (utf8_app [_; _; _]); [reflexivity|exact IH].
Qed.
Lemma lossy_utf8 s : utf8 (lossy s).
Proof. exact (legible_utf8 _ _ (lossy_legible s)). Qed.
Lemma lossy_same s : utf8 s -> lossy s = s.
Proof.
  intros U. symmetry. apply lossy_iff. induction U as [|c s C U IH]; [constructor|]. apply lg_char; assumption.
Qed.
Lemma lossy_text s : lossy s = s <-> utf8 s.
Proof. split; [intros <-; apply lossy_utf8|apply lossy_same]. Qed.

(** ** What is kept *)

Lemma utf8_legible s s' t : utf8 s -> Legible s' t -> Legible (s ++ s') (s ++ t).
Proof.
  intros U H. induction U as [|c s C U IH]; [exact H|]. rewrite <- !app_assoc. apply lg_char; assumption.
Qed.
Lemma legible_same s : Legible s s <-> utf8 s.
Proof. rewrite lossy_iff. rewrite <- lossy_text. split; intros H; symmetry; exact H. Qed.

Lemma begins_high c d p : begins_char (c :: d :: p) -> Forall (fun x => 128 <= #x) (c :: d :: p).
Proof.
  intros [q H]. pose proof (char_length _ H) as L.
  cut (Forall (fun x => 128 <= #x) ((c :: d :: p) ++ q)); [intros F; apply Forall_app in F; apply F|].
  destruct (p ++ q) as [|e [|f [|g r]]] eqn:Q; change ((c :: d :: p) ++ q) with (c :: d :: (p ++ q)) in *;
    rewrite Q in *; cbn [length] in L; try lia.
  - apply char2 in H. unfold lead2, cont in H. repeat constructor; lia.
  - apply char3 in H. unfold pair3, cont in H. repeat constructor; lia.
  - apply char4 in H. unfold pair4, cont in H. repeat constructor; lia.
Qed.
Lemma ascii_app s t : ascii_part (s ++ t) = ascii_part s ++ ascii_part t.
Proof. apply filter_app. Qed.
Lemma no_ascii s : Forall (fun x => 128 <= #x) s -> ascii_part s = [].
Proof.
  induction 1 as [|c s C F IH]; [reflexivity|]. unfold ascii_part in *. cbn [filter].
  destruct (#c <? 128) eqn:Q; [apply Nat.ltb_lt in Q; lia|exact IH].
Qed.
Lemma legible_ascii s t : Legible s t -> ascii_part t = ascii_part s.
Proof.
  induction 1 as [|c s t U H IH|p s t N B M H IH]; [reflexivity|rewrite !ascii_app, IH; reflexivity|].
  rewrite ascii_app, (no_ascii p), <- IH; [reflexivity|].
  destruct p as [|c [|d p]].
  - constructor.
  - repeat constructor. specialize (N [c] s eq_refl). destruct (le_lt_dec 128 #c) as [L|L]; [exact L|].
    assert (U : utf8_char [c] = true) by (apply char1; lia). congruence.
  - destruct B as [[B _]|B]; [apply begins_high, B|discriminate].
Qed.
Lemma legible_exists s : exists! t, Legible s t.
Proof.
  exists (lossy s). split; [apply lossy_legible|]. intros t H. symmetry. apply lossy_iff, H.
Qed.
Lemma legible_length s t : Legible s t -> length t <= 3 * length s.
Proof.
  induction 1 as [|c s t U H IH|p s t N B M H IH]; [cbn; lia|rewrite !app_length; lia|].
  rewrite app_length. cbn [length]. assert (1 <= length p) by (destruct B as [[_ B]|B]; [destruct p; [congruence|cbn; lia]|lia]). lia.
Qed.
