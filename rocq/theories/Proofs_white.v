(** * Proofs about white space, trimming and quoting *)

From Coq Require Import String List Ascii Bool Arith NArith Lia.
From Verif Require Import Text Utf8 Debug Spec_print Spec_css Proofs_text Proofs_unescape.
From Verif Require Proofs_print.
Import ListNotations.

(** ** White space *)

Lemma white_iff w : white w <-> In w white_chars.
Proof.
  split.
  - intros [n [P ->]].
    assert (A : forall l, forallb (fun n => existsb (beq (encode n)) white_chars) l = true -> In n l -> In (encode n) white_chars).
    { intros l F I. rewrite forallb_forall in F. specialize (F n I). apply existsb_exists in F as [x [X E]].
      apply beq_eq in E. congruence. }
    apply (A ([9; 10; 11; 12; 13; 32; 133; 160; 5760; 8192; 8193; 8194; 8195; 8196; 8197; 8198; 8199; 8200; 8201; 8202;
               8232; 8233; 8239; 8287; 12288]%N)); [vm_compute; reflexivity|].
    unfold white_point in P. cbn [In]. lia.
  - assert (A : Forall (fun w => exists n, white_point n /\ w = encode n) white_chars).
    2: { intros I. rewrite Forall_forall in A. exact (A w I). }
    unfold white_chars. cbn [map app seq]. unfold bytes_of. cbn [map].
    repeat first [apply List.Forall_nil | apply List.Forall_cons;
      [eexists (code_point _); split; [|symmetry; apply encode_code_point; vm_compute; reflexivity];
       vm_compute; intuition discriminate|]].
Qed.

Lemma has_white_iff s : has_white s = true <-> contains_white s.
Proof.
  unfold contains_white. induction s as [|c s IH]; cbn [has_white].
  - rewrite orb_false_r. split.
    + intros H. apply existsb_exists in H as [w [I S]]. apply starts_with_iff in S as [r ->].
      exists [], w, r. split; [reflexivity|apply white_iff, I].
    + intros (x & w & y & E & W). symmetry in E. apply app_eq_nil in E as [_ E]. apply app_eq_nil in E as [-> _].
      apply white_iff in W. exfalso. revert W. vm_compute. intuition discriminate.
  - rewrite orb_true_iff, IH. split.
    + intros [H|(x & w & y & E & W)].
      * apply existsb_exists in H as [w [I S]]. apply starts_with_iff in S as [r ->].
        exists [], w, r. split; [reflexivity|apply white_iff, I].
      * exists (c :: x), w, y. split; [rewrite E; reflexivity|exact W].
    + intros ([|d x] & w & y & E & W).
      * left. apply existsb_exists. exists w. split; [apply white_iff, W|]. apply starts_with_iff. eauto.
      * right. injection E as -> ->. eauto 6.
Qed.

(** ** Trimming *)

Inductive star (ws : list bytes) : bytes -> Prop :=
| star_nil : star ws []
| star_cons w s : In w ws -> star ws s -> star ws (w ++ s).

Lemma star_app ws x y : star ws x -> star ws y -> star ws (x ++ y).
Proof. induction 1; intros Y; [exact Y|]. rewrite <- app_assoc. constructor; auto. Qed.
Lemma star_white s : all_white s <-> star white_chars s.
Proof. split; induction 1; constructor; auto; apply white_iff; assumption. Qed.
Lemma star_rev ws x : star ws x -> star (map (@rev ascii) ws) (rev x).
Proof.
  induction 1 as [|w s I S IH]; [constructor|]. rewrite rev_app_distr. apply star_app; [exact IH|].
  rewrite <- (app_nil_r (rev w)). constructor; [apply in_map, I|constructor].
Qed.
Lemma map_rev_rev (ws : list bytes) : map (@rev ascii) (map (@rev ascii) ws) = ws.
Proof. rewrite map_map. rewrite <- (map_id ws) at 2. apply map_ext. apply rev_involutive. Qed.

Definition prefix_free (ws : list bytes) : bool :=
  forallb (fun w => negb (beq w []) && forallb (fun w' => implb (starts_with w w') (beq w w')) ws) ws.

Lemma prefix_nonempty ws w : prefix_free ws = true -> In w ws -> w <> [].
Proof.
  intros P I. unfold prefix_free in P. rewrite forallb_forall in P. specialize (P w I).
  apply andb_true_iff in P as [P _]. intros ->. discriminate P.
Qed.
Lemma prefix_same ws w w' r r' : prefix_free ws = true -> In w ws -> In w' ws -> w ++ r = w' ++ r' -> w = w' /\ r = r'.
Proof.
  intros P I I' E. assert (A : w = w'); [|subst; apply app_inv_head in E; auto].
  assert (Q : forall u v, In u ws -> In v ws -> (exists l, v = u ++ l) -> u = v).
  { intros u v U V L. unfold prefix_free in P. rewrite forallb_forall in P. specialize (P u U).
    apply andb_true_iff in P as [_ P]. rewrite forallb_forall in P. specialize (P v V).
    apply starts_with_iff in L. rewrite L in P. apply beq_eq, P. }
  apply app_eq_app in E as [l [[L _]|[L _]]].
  - symmetry. apply Q; eauto.
  - apply Q; eauto.
Qed.

Lemma find_prefix ws s : match find (fun w => starts_with w s) ws with
  | Some w => In w ws /\ exists r, s = w ++ r
  | None => forall w r, In w ws -> s <> w ++ r
  end.
Proof.
  destruct (find _ ws) as [w|] eqn:F.
  - apply find_some in F as [I S]. apply starts_with_iff in S. auto.
  - intros w r I E. apply (find_none _ _ F) in I. rewrite (proj2 (starts_with_iff w s)) in I; [discriminate I|eauto].
Qed.

Lemma skip_prefix (w r : bytes) : skipn (length w) (w ++ r) = r.
Proof. induction w; auto. Qed.

Lemma trim_with_spec ws fuel : prefix_free ws = true -> forall s, length s <= fuel ->
  (exists x, s = x ++ trim_with ws fuel s /\ star ws x) /\
  forall w r, In w ws -> trim_with ws fuel s <> w ++ r.
Proof.
  intros P. induction fuel as [|f IH]; intros s L; cbn [trim_with].
  - destruct s; [|cbn in L; lia]. split; [exists []; split; [reflexivity|constructor]|].
    intros w r I E. symmetry in E. apply app_eq_nil in E as [-> _]. exact (prefix_nonempty ws [] P I eq_refl).
  - pose proof (find_prefix ws s) as F. destruct (find (fun w => starts_with w s) ws) as [w|].
    + destruct F as [I [r ->]]. rewrite skip_prefix.
      assert (N := prefix_nonempty ws w P I). rewrite app_length in L.
      destruct (IH r) as [[x [E S]] T]; [destruct w; [contradiction|cbn in L; lia]|].
      split; [|exact T]. exists (w ++ x). split; [rewrite <- app_assoc, <- E; reflexivity|constructor; assumption].
    + split; [|exact F]. exists []. split; [reflexivity|constructor].
Qed.

Lemma trim_with_unique ws x : prefix_free ws = true -> star ws x -> forall t fuel,
  (forall w r, In w ws -> t <> w ++ r) -> length (x ++ t) <= fuel -> trim_with ws fuel (x ++ t) = t.
Proof.
  intros P. induction 1 as [|w s I S IH]; intros t fuel T L.
  - cbn [app]. destruct fuel as [|f]; [reflexivity|]. cbn [trim_with].
    pose proof (find_prefix ws t) as F. destruct (find _ ws) as [w|]; [|reflexivity].
    destruct F as [I [r E]]. exfalso. exact (T w r I E).
  - assert (N := prefix_nonempty ws w P I).
    destruct fuel as [|f]; [rewrite !app_length in L; destruct w; [contradiction|cbn in L; lia]|].
    cbn [trim_with]. rewrite <- app_assoc.
    pose proof (find_prefix ws (w ++ s ++ t)) as F. destruct (find _ ws) as [w'|].
    + destruct F as [I' [r E]]. destruct (prefix_same ws w w' _ _ P I I' E) as [<- <-].
      rewrite skip_prefix. apply IH; [exact T|]. rewrite <- app_assoc, app_length in L.
      destruct w; [contradiction|cbn in L; lia].
    + exfalso. exact (F w _ I eq_refl).
Qed.

Lemma white_prefix_free : prefix_free white_chars = true.
Proof. vm_compute. reflexivity. Qed.
Lemma rev_prefix_free : prefix_free (map (@rev ascii) white_chars) = true.
Proof. vm_compute. reflexivity. Qed.

(** A white character has one leading byte. *)
Lemma white_shape w : In w white_chars ->
  exists c r, w = c :: r /\ is_cont c = false /\ Forall (fun d => is_cont d = true) r.
Proof.
  assert (A : forallb (fun w => match w with c :: r => negb (is_cont c) && forallb is_cont r | [] => false end) white_chars = true)
    by (vm_compute; reflexivity).
  rewrite forallb_forall in A. intros I. specialize (A w I). destruct w as [|c r]; [discriminate A|].
  apply andb_true_iff in A as [A B]. exists c, r. split; [reflexivity|]. split; [apply negb_true_iff, A|].
  apply Forall_forall. rewrite forallb_forall in B. exact B.
Qed.

Lemma trim_trimmed s : trimmed s (trim s).
Proof.
  unfold trim, trimmed.
  destruct (trim_with_spec white_chars (length s) white_prefix_free s (le_n _)) as [[x [E X]] T].
  fold (trim_start s) in *. set (u := trim_start s) in *. clearbody u.
  destruct (trim_with_spec _ (length u) rev_prefix_free (rev u)) as [[y [E' Y]] T']; [rewrite rev_length; lia|].
  unfold trim_end. set (v := trim_with _ _ (rev u)) in *. clearbody v.
  assert (U : u = rev v ++ rev y) by (rewrite <- rev_app_distr, <- E', rev_involutive; reflexivity).
  split; [exists x, (rev y); split; [rewrite <- U; exact E|split]|split].
  - apply star_white, X.
  - apply star_white. rewrite <- (map_rev_rev white_chars). apply star_rev, Y.
  - intros w r W V. apply white_iff in W. apply (T w (r ++ rev y) W). rewrite U, V, <- app_assoc. reflexivity.
  - intros w r W V. apply white_iff in W. apply (T' (rev w) (rev r)); [apply in_map, W|].
    rewrite <- rev_app_distr, <- V, rev_involutive. reflexivity.
Qed.

Lemma trimmed_trim s t : trimmed s t -> trim s = t.
Proof.
  intros [(x & y & -> & X & Y) [P S]]. apply star_white in X, Y. unfold trim.
  assert (N : forall w r, In w white_chars -> [] <> w ++ r).
  { intros w r I E. symmetry in E. apply app_eq_nil in E as [-> _].
    exact (prefix_nonempty _ [] white_prefix_free I eq_refl). }
  destruct t as [|c t].
  - cbn [app]. unfold trim_start. rewrite <- (app_nil_r (x ++ y)) at 2.
    rewrite (trim_with_unique white_chars (x ++ y)); [reflexivity|exact white_prefix_free|apply star_app; assumption|exact N|].
    rewrite app_nil_r. lia.
  - assert (T : trim_start (x ++ (c :: t) ++ y) = (c :: t) ++ y).
    { unfold trim_start. apply trim_with_unique; [exact white_prefix_free|exact X| |lia].
      intros w r I E. apply app_eq_app in E as [l [[L _]|[L R]]].
      - exact (P w l (proj2 (white_iff w) I) L).
      - destruct l as [|d l]; [rewrite app_nil_r in L; apply (P w []); [apply white_iff, I|rewrite app_nil_r; congruence]|].
        destruct (white_shape w I) as (c' & r' & -> & _ & C). injection L as -> ->.
        apply Forall_app in C as [_ C]. inversion C; subst.
        inversion Y as [|w2 s2 I2 S2 Q]; subst.
        destruct (white_shape w2 I2) as (c2 & r2 & -> & C2 & _). injection Q as -> _. congruence. }
    rewrite T. unfold trim_end. rewrite rev_app_distr.
    rewrite trim_with_unique; [apply rev_involutive|exact rev_prefix_free|apply star_rev, Y| |].
    + intros w r I E. apply in_map_iff in I as [w' [<- I]]. apply (S w' (rev r)); [apply white_iff, I|].
      rewrite <- (rev_involutive (c :: t)), E, rev_app_distr, rev_involutive. reflexivity.
    + rewrite <- rev_app_distr, rev_length. lia.
Qed.

(** ** Hexadecimal numbers *)

Lemma hex_digit_nth d : d < 16 -> nth_error hex_digits d = Some (hex_digit (N.of_nat d)).
Proof. intros L. do 16 (destruct d as [|d]; [reflexivity|]). lia. Qed.
Lemma nth_hex_digit d c : nth_error hex_digits d = Some c -> d < 16 /\ c = hex_digit (N.of_nat d).
Proof.
  intros H. assert (L : d < 16).
  { change 16 with (length hex_digits). apply nth_error_Some. congruence. }
  split; [exact L|]. rewrite (hex_digit_nth d L) in H. congruence.
Qed.

Lemma hex_aux_written fuel : forall n acc, (n < 16 ^ N.of_nat fuel)%N -> fuel <> 0 ->
  exists h, hexadecimal n h /\ hex_aux fuel n acc = h ++ acc.
Proof.
  induction fuel as [|f IH]; intros n acc L F; [congruence|]. cbn [hex_aux].
  assert (M : (n mod 16 < 16)%N) by (apply N.mod_lt; discriminate).
  assert (D : nth_error hex_digits (N.to_nat (n mod 16)) = Some (hex_digit (n mod 16))).
  { rewrite hex_digit_nth by lia. rewrite N2Nat.id. reflexivity. }
  destruct (N.ltb_spec n 16) as [Q|Q].
  - exists [hex_digit (n mod 16)]. split; [|reflexivity].
    replace n with (N.of_nat (N.to_nat (n mod 16))) at 1 by (rewrite N2Nat.id; apply N.mod_small, Q).
    constructor. exact D.
  - replace (N.of_nat (S f)) with (N.succ (N.of_nat f)) in L by lia. rewrite N.pow_succ_r' in L.
    destruct (IH (n / 16)%N (hex_digit (n mod 16) :: acc)) as [h [H E]].
    + apply N.div_lt_upper_bound; [discriminate|exact L].
    + destruct f; [cbn in L; lia|discriminate].
    + exists (h ++ [hex_digit (n mod 16)]). split; [|rewrite E, <- app_assoc; reflexivity].
      replace n with (n / 16 * 16 + N.of_nat (N.to_nat (n mod 16)))%N at 1.
      * constructor; [|exact H|exact D]. apply N.div_str_pos. lia.
      * rewrite N2Nat.id. rewrite (N.div_mod n 16) at 3 by discriminate. lia.
Qed.
Lemma hex_written n : (n < 4294967296)%N -> hexadecimal n (hex n).
Proof.
  intros L. destruct (hex_aux_written 8 n []) as [h [H E]]; [exact L|discriminate|].
  unfold hex. rewrite E, app_nil_r. exact H.
Qed.
Lemma hexadecimal_unique n h : hexadecimal n h -> forall h', hexadecimal n h' -> h = h'.
Proof.
  induction 1 as [d c D|n d t c P H IH D]; intros h' H'; apply nth_hex_digit in D as [L ->].
  - inversion H' as [d' c' D' E|n' d' t' c' P' Q D' E]; apply nth_hex_digit in D' as [L' ->]; [|lia].
    replace d' with d by lia. reflexivity.
  - remember (n * 16 + N.of_nat d)%N as m eqn:M.
    destruct H' as [d' c' D'|n' d' t' c' P' Q D']; apply nth_hex_digit in D' as [L' ->]; [lia|].
    assert (n = n') by lia. subst n'. assert (d = d') by lia. subst d'. rewrite (IH t' Q). reflexivity.
Qed.
Lemma hex_iff n h : (n < 4294967296)%N -> hexadecimal n h <-> h = hex n.
Proof.
  intros L. split; [|intros ->; apply hex_written, L]. intros H.
  exact (hexadecimal_unique n h H _ (hex_written n L)).
Qed.

(** ** Quoting *)

Lemma code_point_encode n : (n < 1114112)%N -> code_point (encode n) = n.
Proof.
  intros L. unfold encode, enc6.
  assert (M : forall a, (a mod 64 < 64)%N) by (intros; apply N.mod_lt; discriminate).
  assert (C6 : forall a, low6 (ascii_of_N (128 + a mod 64)) = (a mod 64)%N).
  { intros a. unfold low6. specialize (M a). set (r := (a mod 64)%N) in *. clearbody r.
    rewrite N_asc by lia. rewrite (mod_sub 2 64) by lia. lia. }
  assert (DM : forall a, a = (64 * (a / 64) + a mod 64)%N) by (intros; apply N.div_mod; discriminate).
  assert (D2 : (n / 4096 = n / 64 / 64)%N) by (rewrite N.div_div by discriminate; reflexivity).
  assert (D3 : (n / 262144 = n / 4096 / 64)%N) by (rewrite N.div_div by discriminate; reflexivity).
  pose proof (DM n) as E1. pose proof (DM (n / 64)%N) as E2. pose proof (DM (n / 4096)%N) as E3.
  rewrite <- D2 in E2. rewrite <- D3 in E3.
  pose proof (M n) as M1. pose proof (M (n / 64)%N) as M2. pose proof (M (n / 4096)%N) as M3.
  destruct (N.ltb_spec n 128); [cbn [code_point]; apply N_asc; lia|].
  destruct (N.ltb_spec n 2048); [|destruct (N.ltb_spec n 65536)]; cbn [code_point]; rewrite !C6;
  set (r1 := (n mod 64)%N) in *; set (r2 := (n / 64 mod 64)%N) in *; set (r3 := (n / 4096 mod 64)%N) in *;
  set (q1 := (n / 64)%N) in *; set (q2 := (n / 4096)%N) in *; set (q3 := (n / 262144)%N) in *;
  clearbody r1 r2 r3 q1 q2 q3; clear DM M C6 D2 D3.
  - rewrite N_asc by lia. rewrite (mod_sub 6 32) by lia. lia.
  - rewrite N_asc by lia. rewrite (mod_sub 14 16) by lia. lia.
  - rewrite N_asc by lia. rewrite (mod_sub 30 8) by lia. lia.
Qed.

Lemma code_point_low c : utf8_char c = true -> (code_point c < 1114112)%N.
Proof.
  intros H. unfold utf8_char in H.
  destruct c as [|c [|d [|e [|f [|]]]]]; try discriminate H.
  - apply between_N in H. cbn [code_point]. cbn in H. lia.
  - apply andb_true_iff in H as [H1 H2]. apply between_N in H1; cbn in H1. apply cont_range in H2.
    unfold code_point, low6. rewrite (mod_sub 6 32), (mod_sub 2 64 (N_of_ascii d)) by lia. lia.
  - assert (R : (224 <= N_of_ascii c < 240 /\ 128 <= N_of_ascii d < 192 /\ 128 <= N_of_ascii e < 192)%N).
    { repeat (apply orb_true_iff in H as [H|H]); apply andb_true_iff in H as [H H3];
      apply andb_true_iff in H as [H1 H2]; apply between_N in H1; cbn in H1; apply cont_range in H3;
      first [apply cont_range in H2|apply between_N in H2; cbn in H2]; lia. }
    unfold code_point, low6.
    rewrite (mod_sub 14 16), (mod_sub 2 64 (N_of_ascii d)), (mod_sub 2 64 (N_of_ascii e)) by lia. lia.
  - assert (R : (240 <= N_of_ascii c < 245 /\ 128 <= N_of_ascii d < 192 /\ 128 <= N_of_ascii e < 192
               /\ 128 <= N_of_ascii f < 192
               /\ (N_of_ascii c = 244 -> N_of_ascii d <= 143))%N).
    { repeat (apply orb_true_iff in H as [H|H]); apply andb_true_iff in H as [H H4];
      apply andb_true_iff in H as [H H3];
      apply andb_true_iff in H as [H1 H2]; apply between_N in H1; cbn in H1; apply cont_range in H3, H4;
      first [apply cont_range in H2|apply between_N in H2; cbn in H2]; lia. }
    unfold code_point, low6.
    rewrite (mod_sub 30 8), (mod_sub 2 64 (N_of_ascii d)), (mod_sub 2 64 (N_of_ascii e)),
      (mod_sub 2 64 (N_of_ascii f)) by lia. lia.
Qed.

Section Quote.
Variable printable : bytes -> bool.

Definition show_char (c : bytes) : bytes :=
  match c with
  | [d] => debug_ascii d
  | _ => if printable c then c else unicode_escape c
  end.

Lemma debug_ascii_shown c : nat_of_ascii c <= 127 -> shown printable [c] (debug_ascii c).
Proof.
  intros L. unfold debug_ascii.
  destruct (ch c "000") eqn:Q0; [apply ch_eq in Q0; subst; constructor|].
  destruct (ch c TAB) eqn:Q1; [apply ch_eq in Q1; subst; constructor|].
  destruct (ch c CR) eqn:Q2; [apply ch_eq in Q2; subst; constructor|].
  destruct (ch c LF) eqn:Q3; [apply ch_eq in Q3; subst; constructor|].
  destruct (ch c DQ) eqn:Q4; [apply ch_eq in Q4; subst; constructor|].
  destruct (ch c BS) eqn:Q5; [apply ch_eq in Q5; subst; constructor|].
  apply ch_neq in Q0, Q1, Q2, Q3, Q4, Q5.
  destruct (between 32 126 c) eqn:B.
  - apply between_iff in B. apply sh_ascii; auto.
  - assert (nat_of_ascii c < 32 \/ nat_of_ascii c = 127).
    { unfold between in B. apply andb_false_iff in B as [B|B]; apply Nat.leb_gt in B; lia. }
    unfold unicode_escape. cbn [code_point]. apply sh_control; [assumption| |].
    + cbn [In]. intuition congruence.
    + apply hex_written. pose proof (N_bound c). lia.
Qed.

Lemma show_char_shown c : utf8_char c = true -> shown printable c (show_char c).
Proof.
  intros U. destruct (utf8_char_shape c U) as (d & ks & -> & _ & _ & [[L ->]|[L N]]).
  - apply debug_ascii_shown, L.
  - destruct ks as [|k ks]; [contradiction|]. cbn [show_char].
    destruct (printable (d :: k :: ks)) eqn:P.
    + apply sh_wide; [cbn; lia|exact P].
    + apply (sh_hidden _ _ (code_point (d :: k :: ks))); [cbn; lia|exact P| | |].
      * apply code_point_low, U.
      * symmetry. apply encode_code_point, U.
      * apply hex_written, code_point_bound.
Qed.

Lemma shown_show_char c t : shown printable c t -> t = show_char c.
Proof.
  destruct 1 as [| | | | | |c R N1 N2|c h R N H|c L P|c n h L P B E H]; try reflexivity.
  - cbn [show_char]. unfold debug_ascii.
    repeat match goal with |- context [if ch c ?x then _ else _] =>
      replace (ch c x) with false by (symmetry; apply ch_neq; intros ->; first [congruence|cbn in R; lia]) end.
    replace (between 32 126 c) with true; [reflexivity|].
    symmetry. unfold between. apply andb_true_iff. rewrite !Nat.leb_le. exact R.
  - cbn [show_char]. unfold debug_ascii. cbn [In] in N.
    repeat match goal with |- context [if ch c ?x then _ else _] =>
      replace (ch c x) with false by (symmetry; apply ch_neq; intros ->; first [intuition congruence|cbn in R; lia]) end.
    replace (between 32 126 c) with false.
    2: { symmetry. unfold between. apply andb_false_iff. rewrite !Nat.leb_gt. lia. }
    unfold unicode_escape. cbn [code_point]. rewrite (proj1 (hex_iff (N_of_ascii c) h ltac:(pose proof (N_bound c); lia)) H). reflexivity.
  - destruct c as [|d [|k ks]]; cbn in L; try lia. unfold show_char. rewrite P. reflexivity.
  - assert (C : code_point c = n) by (rewrite E; apply code_point_encode, B).
    destruct c as [|d [|k ks]]; cbn in L; try lia. unfold show_char. rewrite P.
    unfold unicode_escape. rewrite C, (proj1 (hex_iff n h ltac:(lia)) H). reflexivity.
Qed.

Lemma debug_chars_cons c s fuel : utf8_char c = true -> utf8 s ->
  debug_chars printable (S fuel) (c ++ s) = show_char c ++ debug_chars printable fuel s.
Proof.
  intros U V. destruct (utf8_char_shape c U) as (d & ks & -> & NC & K & [[L ->]|[L N]]); cbn [app debug_chars].
  - assert (B : between 0 127 d = true) by (unfold between; apply andb_true_iff; rewrite !Nat.leb_le; lia).
    rewrite B. reflexivity.
  - assert (B : between 0 127 d = false) by (unfold between; apply andb_false_iff; rewrite !Nat.leb_gt; lia).
    rewrite B.
    rewrite Proofs_print.take_cont_app by (auto using utf8_boundary).
    destruct ks as [|k ks]; [contradiction|]. reflexivity.
Qed.

Lemma debug_chars_enough s : utf8 s -> forall fuel, length s <= fuel -> all_shown printable s (debug_chars printable fuel s).
Proof.
  induction 1 as [|c s U V IH]; intros fuel L; [destruct fuel; constructor|].
  assert (0 < length c) by (destruct c; [discriminate U|cbn; lia]). rewrite app_length in L.
  destruct fuel as [|fuel]; [lia|]. rewrite (debug_chars_cons c s fuel U V).
  constructor; [exact U|apply show_char_shown, U|apply IH; lia].
Qed.

Lemma all_shown_utf8 s t : all_shown printable s t -> utf8 s.
Proof. induction 1; constructor; assumption. Qed.
Lemma all_shown_debug s t : all_shown printable s t -> forall fuel, length s <= fuel -> t = debug_chars printable fuel s.
Proof.
  induction 1 as [|c t s u U S A IH]; intros fuel L; [destruct fuel; reflexivity|].
  assert (0 < length c) by (destruct c; [discriminate U|cbn; lia]). rewrite app_length in L.
  destruct fuel as [|fuel]; [lia|]. rewrite (debug_chars_cons c s fuel U (all_shown_utf8 s u A)).
  rewrite <- (IH fuel) by lia. rewrite <- (shown_show_char c t S). reflexivity.
Qed.

Lemma debug_quoted s : utf8 s -> quoted printable s (debug_str printable s).
Proof. intros U. exists (debug_body printable s). split; [|reflexivity]. apply debug_chars_enough; auto. Qed.
Lemma quoted_debug s q : quoted printable s q -> q = debug_str printable s.
Proof. intros [t [A ->]]. unfold debug_str, debug_body. rewrite (all_shown_debug s t A _ (le_n _)). reflexivity. Qed.
End Quote.
