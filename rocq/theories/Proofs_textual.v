(** * Splitting, integers and paths *)

From Coq Require Import String List Ascii Bool Arith NArith ZArith Lia DecimalString DecimalPos.
From Verif Require Import Text Utf8 Numbers Paths Spec_builtin Spec_scope Spec_text
  Proofs_text Proofs_scope Proofs_get.
Import ListNotations.

(** ** Splitting *)

Lemma app_same_length {A} (x x' y y' : list A) :
  length x = length x' -> x ++ y = x' ++ y' -> x = x' /\ y = y'.
Proof.
  revert x'. induction x as [|a x IH]; intros [|a' x'] L E; cbn in *; try discriminate; auto.
  inversion E; subst. destruct (IH x') as [A1 A2]; [lia|assumption|]. subst. auto.
Qed.

Lemma split_skip sep cur u s : split_from sep (length u) cur (u ++ s) = split_from sep 0 cur s.
Proof. induction u as [|c u IH]; [reflexivity|]. cbn. exact IH. Qed.

Definition clear (sep cur s : bytes) : Prop :=
  forall x' s', cur ++ s = x' ++ sep ++ s' -> length cur <= length x'.

Lemma split_cut sep : sep <> [] -> forall n s cur, length s <= n -> clear sep cur s ->
  cut sep (cur ++ s) (split_from sep 0 cur s).
Proof.
  intros N. induction n as [|n IH]; intros s cur L C.
  - destruct s; [|cbn in L; lia]. cbn. rewrite app_nil_r in *. constructor.
    intros [x [y Q]]. specialize (C x y). rewrite app_nil_r in C. specialize (C Q).
    apply (f_equal (@length _)) in Q. rewrite !app_length in Q. destruct sep; [congruence|]. cbn in Q. lia.
  - destruct s as [|c s]; [apply IH; [cbn; lia|exact C]|]. cbn [split_from].
    destruct (starts_with sep (c :: s)) eqn:S.
    + apply starts_with_iff in S as [r S]. destruct sep as [|c0 t]; [congruence|].
      cbn in S. inversion S; subst c0 s. clear S.
      replace (length (c :: t) - 1) with (length t) by (cbn; lia).
      rewrite split_skip. change (cur ++ c :: t ++ r) with (cur ++ (c :: t) ++ r). apply cut_first.
      * exact C.
      * apply (IH r []); [cbn in L; rewrite app_length in L; lia|]. intros x' s' _. cbn. lia.
    + replace (cur ++ c :: s) with ((cur ++ [c]) ++ s) by (rewrite <- app_assoc; reflexivity).
      apply IH; [cbn in L; lia|]. intros x' s' Q. rewrite <- app_assoc in Q. cbn in Q.
      specialize (C _ _ Q). rewrite app_length. cbn.
      destruct (Nat.eq_dec (length cur) (length x')) as [E|E]; [|lia].
      apply app_same_length in Q as [_ Q]; [|exact E].
      assert (T : starts_with sep (c :: s) = true) by (apply starts_with_iff; exists s'; exact Q). congruence.
Qed.

Lemma cut_unique sep s l : cut sep s l -> forall l', cut sep s l' -> l = l'.
Proof.
  induction 1 as [s N|x s l F C IH]; intros l' C'.
  - inversion C' as [|x' s' l0 F' C0]; subst; [reflexivity|]. exfalso. apply N. exists x', s'. reflexivity.
  - inversion C' as [s0 N0 Q|x' s' l0 F' C0 Q]; subst.
    + exfalso. apply N0. exists x, s. reflexivity.
    + assert (L : length x' = length x).
      { pose proof (F x' s' (eq_sym Q)). pose proof (F' x s Q). lia. }
      apply app_same_length in Q as [Q1 Q2]; [|exact L]. subst x'.
      apply app_inv_head in Q2. subst s'. f_equal. apply IH, C0.
Qed.

Lemma split_is_cut sep s : sep <> [] -> cut sep s (split sep s).
Proof.
  intros N. destruct sep as [|c sep]; [congruence|]. unfold split.
  apply (split_cut (c :: sep) N (length s) s []); [lia|]. intros x' s' _. cbn. lia.
Qed.

Lemma split_exactly sep s l : sep <> [] -> split sep s = l <-> cut sep s l.
Proof.
  intros N. split.
  - intros <-. apply split_is_cut, N.
  - intros C. exact (cut_unique _ _ _ (split_is_cut sep s N) _ C).
Qed.

Lemma cut_joined sep s l : cut sep s l -> separated sep l = s.
Proof.
  induction 1 as [s N|x s l F C IH]; [apply app_nil_r|].
  cbn. f_equal. destruct l as [|y l]; [inversion C|]. cbn in *. rewrite <- IH, app_assoc. reflexivity.
Qed.

Lemma cut_free sep s l : sep <> [] -> cut sep s l -> Forall (fun x => ~ occurs sep x) l.
Proof.
  intros N. induction 1 as [s O|x s l F C IH]; [constructor; [exact O|constructor]|].
  constructor; [|exact IH]. intros [u [v Q]]. subst x.
  specialize (F u (v ++ sep ++ s)). rewrite <- !app_assoc in F. specialize (F eq_refl).
  rewrite !app_length in F. destruct sep; [congruence|]. cbn in F. lia.
Qed.

Lemma split_joined sep s : sep <> [] ->
  separated sep (split sep s) = s /\ Forall (fun x => ~ occurs sep x) (split sep s).
Proof.
  intros N. split; [eapply cut_joined, split_is_cut, N|eapply cut_free; [exact N|]; apply split_is_cut, N].
Qed.

(** Characters. *)

Lemma chars_step cur c s : chars_from cur (c :: s) =
  if is_cont c then chars_from (cur ++ [c]) s
  else match cur with [] => chars_from [c] s | _ => cur :: chars_from [c] s end.
Proof. destruct c as [[] [] [] [] [] [] [] []]; reflexivity. Qed.

Lemma chars_conts t cur s : Forall (fun c => is_cont c = true) t ->
  chars_from cur (t ++ s) = chars_from (cur ++ t) s.
Proof.
  revert cur. induction t as [|c t IH]; intros cur F; [rewrite app_nil_r; reflexivity|].
  inversion F as [|? ? F1 F2]; subst. rewrite <- app_comm_cons, chars_step, F1, IH by assumption. rewrite <- app_assoc. reflexivity.
Qed.

Lemma cont_between lo hi c : between lo hi c = true -> (hi <= 127 \/ 192 <= lo) -> is_cont c = false.
Proof.
  unfold between. intros H L. apply andb_true_iff in H as [H1 H2]. apply Nat.leb_le in H1, H2.
  destruct (is_cont c) eqn:C; [exfalso|reflexivity].
  assert (R : 128 <= nat_of_ascii c <= 191).
  { clear -C. destruct c as [[] [] [] [] [] [] [] []]; vm_compute in C; try discriminate; vm_compute; lia. }
  lia.
Qed.
Lemma between_cont lo hi c : between lo hi c = true -> 128 <= lo -> hi <= 191 -> is_cont c = true.
Proof.
  unfold between. intros H L1 L2. apply andb_true_iff in H as [H1 H2]. apply Nat.leb_le in H1, H2.
  assert (R : 128 <= nat_of_ascii c <= 191) by lia. clear -R.
  destruct c as [[] [] [] [] [] [] [] []]; vm_compute in R; try reflexivity; exfalso; lia.
Qed.

Lemma utf8_char_shape x : utf8_char x = true ->
  exists c t, x = c :: t /\ is_cont c = false /\ Forall (fun d => is_cont d = true) t.
Proof.
  intros H. destruct x as [|c [|d [|e [|f [|g x]]]]]; cbn -[between is_cont] in H; try discriminate;
    exists c; eexists; (split; [reflexivity|]);
    repeat match goal with
    | H : (_ || _)%bool = true |- _ => apply orb_true_iff in H as [H|H]
    | H : (_ && _)%bool = true |- _ => apply andb_true_iff in H as [H ?]
    end;
    (split; [eapply cont_between; [eassumption|lia]|]);
    repeat constructor; try assumption;
    eapply between_cont; try eassumption; lia.
Qed.

Lemma chars_utf8 s : utf8 s -> exists cs, concat cs = s /\ Forall (fun c => utf8_char c = true) cs /\
  chars_from [] s = cs /\ forall cur, cur <> [] -> chars_from cur s = cur :: cs.
Proof.
  induction 1 as [|x s U H IH].
  - exists []. repeat split; [constructor|]. intros [|c cur] N; [congruence|reflexivity].
  - destruct IH as [cs [C [F [Q R]]]]. destruct (utf8_char_shape _ U) as [c [t [-> [N T]]]].
    exists ((c :: t) :: cs). repeat split.
    + cbn. rewrite C. reflexivity.
    + constructor; assumption.
    + rewrite <- app_comm_cons, chars_step, N, chars_conts by exact T. apply R. discriminate.
    + intros cur NE. rewrite <- app_comm_cons, chars_step, N.
      destruct cur as [|a cur]; [congruence|]. rewrite chars_conts by exact T. f_equal. apply R. discriminate.
Qed.

Lemma split_chars s : utf8 s -> exists cs, split [] s = [[]] ++ cs ++ [[]] /\ concat cs = s /\
  Forall (fun c => utf8_char c = true) cs.
Proof.
  intros U. destruct (chars_utf8 s U) as [cs [C [F [Q _]]]]. exists cs. unfold split. rewrite Q. auto.
Qed.

(** ** Integers *)

Lemma digit_iff c d : digit c = Some d <-> (d <= 9)%N /\ c = ascii_of_N (48 + d).
Proof.
  unfold digit. split.
  - destruct ((48 <=? N_of_ascii c)%N && (N_of_ascii c <=? 57)%N) eqn:Q; [|discriminate].
    apply andb_true_iff in Q as [Q1 Q2]. apply N.leb_le in Q1, Q2. intros H. inversion H; subst.
    split; [lia|]. replace (48 + (N_of_ascii c - 48))%N with (N_of_ascii c) by lia.
    symmetry. apply ascii_N_embedding.
  - intros [L ->]. rewrite N_ascii_embedding by lia.
    replace ((48 <=? 48 + d)%N) with true by (symmetry; apply N.leb_le; lia).
    replace ((48 + d <=? 57)%N) with true by (symmetry; apply N.leb_le; lia).
    cbn. f_equal. lia.
Qed.

Lemma digits_from_app acc s c : digits_from acc (s ++ [c]) =
  match digits_from acc s with
  | Some n => match digit c with Some d => Some (10 * n + d)%N | None => None end
  | None => None
  end.
Proof.
  revert acc. induction s as [|a s IH]; intros acc; cbn [app digits_from].
  - destruct (digit c); reflexivity.
  - destruct (digit a); [apply IH|reflexivity].
Qed.

Lemma digits_snoc s c : s <> [] -> digits (s ++ [c]) =
  match digits s with
  | Some n => match digit c with Some d => Some (10 * n + d)%N | None => None end
  | None => None
  end.
Proof.
  intros N. unfold digits. destruct s as [|a s]; [congruence|]. apply digits_from_app.
Qed.

Lemma numeral_nonempty s n : numeral s n -> s <> [].
Proof. destruct 1; [discriminate|]. intros Z. apply app_eq_nil in Z as [_ Z]. discriminate. Qed.

Lemma digits_iff s n : digits s = Some n <-> numeral s n.
Proof.
  split.
  - revert n. induction s as [|c s IH] using rev_ind; [discriminate|].
    intros n. destruct s as [|a s].
    + cbn [app digits digits_from]. destruct (digit c) eqn:D; [|discriminate].
      apply digit_iff in D as [L ->]. intros H. inversion H; subst. apply numeral_one; exact L.
    + rewrite digits_snoc by discriminate. destruct (digits (a :: s)) as [m|]; [|discriminate].
      destruct (digit c) eqn:D; [|discriminate]. apply digit_iff in D as [L ->].
      intros H. inversion H; subst. apply numeral_more; [apply IH; reflexivity|exact L].
  - induction 1 as [d L|s n d H IH L].
    + unfold digits, digits_from. rewrite (proj2 (digit_iff _ d)) by (split; [exact L|reflexivity]).
      f_equal.
    + rewrite digits_snoc by (eapply numeral_nonempty; eassumption). rewrite IH.
      rewrite (proj2 (digit_iff _ d)) by (split; [exact L|reflexivity]). reflexivity.
Qed.

Lemma numeral_head s n c r : numeral s n -> s = c :: r -> c <> "+"%char /\ c <> "-"%char.
Proof.
  intros H E. assert (D : digit c <> None).
  { intros D. apply digits_iff in H. subst. unfold digits in H. cbn [digits_from] in H. rewrite D in H. discriminate. }
  split; intros ->; apply D; reflexivity.
Qed.

Lemma parse_usize_iff s n : parse_usize s = Some n <-> (n < 2 ^ 64)%N /\ unsigned_numeral s n.
Proof.
  unfold parse_usize, unsigned_numeral. split.
  - set (t := match s with c :: s' => if ch c "+" then s' else s | [] => s end).
    destruct (digits t) as [m|] eqn:D; [|discriminate].
    destruct (m <? 2 ^ 64)%N eqn:L; [|discriminate]. intros H. inversion H; subst m.
    split; [apply N.ltb_lt; exact L|]. apply digits_iff in D. exists t. split; [exact D|]. subst t.
    destruct s as [|c s]; [left; reflexivity|]. destruct (ch c "+") eqn:P; [|left; reflexivity].
    apply ch_eq in P. subst. right. reflexivity.
  - intros [L [t [D [Q|Q]]]].
    + subst t. destruct s as [|c s]; [exfalso; eapply numeral_nonempty; [eassumption|reflexivity]|].
      destruct (numeral_head _ _ _ _ D eq_refl) as [P _]. apply ch_neq in P. rewrite P.
      apply digits_iff in D. rewrite D. apply N.ltb_lt in L. rewrite L. reflexivity.
    + subst s. cbn [b list_ascii_of_string app]. rewrite ch_refl.
      apply digits_iff in D. rewrite D. apply N.ltb_lt in L. rewrite L. reflexivity.
Qed.

Lemma parse_i64_iff s z : parse_i64 s = Some z <-> (- 2 ^ 63 <= z < 2 ^ 63)%Z /\ signed_numeral s z.
Proof.
  unfold parse_i64, signed_numeral, unsigned_numeral. split.
  - destruct s as [|c s]; [discriminate|].
    destruct (ch c "+") eqn:P; [|destruct (ch c "-") eqn:M].
    all: match goal with |- context [digits ?t] => destruct (digits t) as [n|] eqn:D; [|discriminate] end.
    all: match goal with |- context [if ?x then Some _ else None] => destruct x eqn:L; [|discriminate] end.
    all: intros H; inversion H; subst z; clear H.
    all: apply andb_true_iff in L as [L1 L2]; apply Z.leb_le in L1; apply Z.ltb_lt in L2.
    all: split; [split; assumption|]; apply digits_iff in D.
    + apply ch_eq in P. subst. left. exists n. split; [|reflexivity]. exists s. auto.
    + apply ch_eq in M. subst. right. exists s, n. auto.
    + left. exists n. split; [|reflexivity]. exists (c :: s). auto.
  - intros [[L1 L2] S].
    assert (L : ((- 2 ^ 63 <=? z)%Z && (z <? 2 ^ 63)%Z)%bool = true).
    { apply andb_true_iff; split; [apply Z.leb_le|apply Z.ltb_lt]; assumption. }
    destruct S as [[n [[t [D [Q|Q]]] ->]]|[t [n [D [-> ->]]]]].
    + subst t. destruct s as [|c s]; [exfalso; eapply numeral_nonempty; [eassumption|reflexivity]|].
      destruct (numeral_head _ _ _ _ D eq_refl) as [P M]. apply ch_neq in P, M. rewrite P, M.
      apply digits_iff in D. rewrite D, L. reflexivity.
    + subst s. cbn [b list_ascii_of_string app]. rewrite ch_refl. apply digits_iff in D. rewrite D, L. reflexivity.
    + cbn [b list_ascii_of_string app]. change (ch "-" "+") with false. rewrite ch_refl.
      apply digits_iff in D. rewrite D. cbv iota. rewrite L. reflexivity.
Qed.

Lemma show_nat_numeral n : numeral (show_nat n) (N.of_nat n).
Proof. apply digits_iff, digits_show_nat. Qed.

Lemma digits_from_pos u p : digits_from (N.pos p) (b (NilEmpty.string_of_uint u)) = Some (N.pos (Pos.of_uint_acc u p)).
Proof.
  revert p. induction u as [|u IH|u IH|u IH|u IH|u IH|u IH|u IH|u IH|u IH|u IH]; intros p; [reflexivity|..].
  all: cbn [NilEmpty.string_of_uint b list_ascii_of_string digits_from].
  all: match goal with |- context [digit ?c] => let d := eval vm_compute in (digit c) in change (digit c) with d end.
  all: change (list_ascii_of_string (NilEmpty.string_of_uint u)) with (b (NilEmpty.string_of_uint u)).
  all: cbv iota beta; cbn [Pos.of_uint_acc]; rewrite <- IH; f_equal; lia.
Qed.

Lemma digits_from_N u : digits_from 0 (b (NilEmpty.string_of_uint u)) = Some (Pos.of_uint u).
Proof.
  induction u as [|u IH|u IH|u IH|u IH|u IH|u IH|u IH|u IH|u IH|u IH]; [reflexivity|exact IH|..].
  all: cbn [NilEmpty.string_of_uint b list_ascii_of_string digits_from].
  all: match goal with |- context [digit ?c] => let d := eval vm_compute in (digit c) in change (digit c) with d end.
  all: change (list_ascii_of_string (NilEmpty.string_of_uint u)) with (b (NilEmpty.string_of_uint u)).
  all: cbv iota beta; cbn [Pos.of_uint]; rewrite <- digits_from_pos; f_equal; lia.
Qed.

Lemma digits_uint u : digits (b (NilZero.string_of_uint u)) = Some (Pos.of_uint u).
Proof.
  destruct u; [reflexivity|..];
  match goal with |- context [NilZero.string_of_uint ?x] =>
    change (NilZero.string_of_uint x) with (NilEmpty.string_of_uint x);
    pose proof (digits_from_N x) as H; unfold digits; cbn [b NilEmpty.string_of_uint list_ascii_of_string] in *;
    exact H end.
Qed.

Lemma show_Z_numeral z : signed_numeral (show_Z z) z.
Proof.
  unfold show_Z, signed_numeral. destruct z as [|p|p]; cbn [Z.to_int].
  - left. exists 0%N. split; [|reflexivity]. exists (b "0"). split; [apply (numeral_one 0); lia|left; reflexivity].
  - left. exists (N.pos p). split; [|reflexivity].
    exists (b (NilZero.string_of_uint (Pos.to_uint p))). split; [|left; reflexivity].
    apply digits_iff. rewrite digits_uint, DecimalPos.Unsigned.of_to. reflexivity.
  - right. exists (b (NilZero.string_of_uint (Pos.to_uint p))), (N.pos p). repeat split.
    apply digits_iff. rewrite digits_uint, DecimalPos.Unsigned.of_to. reflexivity.
Qed.

Lemma parse_show_Z z : (- 2 ^ 63 <= z < 2 ^ 63)%Z -> parse_i64 (show_Z z) = Some z.
Proof. intros L. apply parse_i64_iff. split; [exact L|apply show_Z_numeral]. Qed.

Lemma numeral_unique s n m : numeral s n -> numeral s m -> n = m.
Proof. intros H1 H2. apply digits_iff in H1, H2. congruence. Qed.
