(** * Correctness of the lexer model against the grammar *)

From Coq Require Import List Ascii Bool Arith Lia.
From Verif Require Import Text Utf8 Res Lexer Spec_grammar Proofs_text.
Import ListNotations.

(** ** Character classes *)

Lemma isw_iff : forall c, is_whitespace c = true <-> blank_char c.
Proof.
  intros c. unfold is_whitespace, blank_char.
  rewrite !orb_true_iff, !Ascii.eqb_eq. tauto.
Qed.
Lemma isw_false : forall c, is_whitespace c = false <-> ~ blank_char c.
Proof.
  intros c. rewrite <- isw_iff. destruct (is_whitespace c); split; congruence.
Qed.

Lemma number_start_iff : forall c,
  between 48 57 c = true \/ ch c "+" || ch c "-" = true <-> number_start c.
Proof.
  intros c. rewrite between_iff, orb_true_iff, !Ascii.eqb_eq.
  unfold number_start, digit. tauto.
Qed.

Inductive kind_spec (c : ascii) : option kind -> Prop :=
| ks_ws : blank_char c -> kind_spec c None
| ks_lp : c = "("%char -> kind_spec c (Some KLParen)
| ks_rp : c = ")"%char -> kind_spec c (Some KRParen)
| ks_num : number_start c -> ~ delimiter c -> kind_spec c (Some KNumber)
| ks_kw : c = ":"%char -> kind_spec c (Some KKeyword)
| ks_str : c = DQ -> kind_spec c (Some KString)
| ks_sym : ~ delimiter c -> ~ number_start c -> c <> ":"%char -> kind_spec c (Some KSymbol).

Lemma kindP : forall c, kind_spec c (character_kind c).
Proof.
  intros c. unfold character_kind.
  destruct (is_whitespace c) eqn:W.
  { constructor. apply isw_iff; auto. }
  apply isw_false in W.
  destruct (ch c "(") eqn:E1. { apply ch_eq in E1. constructor; auto. }
  destruct (ch c ")") eqn:E2. { apply ch_eq in E2. constructor; auto. }
  apply ch_neq in E1, E2.
  destruct (between 48 57 c) eqn:E3.
  { constructor. apply number_start_iff; auto.
    intros [|[|[|]]]; try contradiction. subst. discriminate. }
  destruct (ch c "+" || ch c "-") eqn:E4.
  { constructor. apply number_start_iff; auto.
    intros [|[|[|]]]; try contradiction. subst. discriminate. }
  destruct (ch c ":") eqn:E5. { apply ch_eq in E5. constructor; auto. }
  destruct (ch c DQ) eqn:E6. { apply ch_eq in E6. constructor; auto. }
  apply ch_neq in E5, E6.
  constructor; auto.
  - intros [|[|[|]]]; contradiction.
  - rewrite <- number_start_iff. rewrite E3, E4. intros [|]; discriminate.
Qed.

Lemma delimiter_ascii : forall c, delimiter c -> nat_of_ascii c <= 127.
Proof.
  intros c H. unfold delimiter, blank_char in H.
  repeat destruct H as [H|H]; subst; vm_compute; lia.
Qed.
Lemma non_ascii_plain : forall c, 128 <= nat_of_ascii c -> plain c.
Proof.
  intros c H. split.
  - intros D. apply delimiter_ascii in D. lia.
  - intros ->. vm_compute in H. lia.
Qed.
Lemma cont_plain : forall c, is_cont c = true -> plain c.
Proof. intros c H. apply is_cont_iff in H. apply non_ascii_plain. lia. Qed.
Lemma cont_not_lf : forall c, is_cont c = true -> ch c LF = false.
Proof. intros c H. apply ch_neq. intros ->. discriminate. Qed.

(** ** Advancing *)

Definition col_after (col : nat) (t : bytes) : nat :=
  fold_left (fun k c => if ch c LF then 0 else S k) t col.

Lemma col_after_app : forall col x y, col_after col (x ++ y) = col_after (col_after col x) y.
Proof. intros. unfold col_after. apply fold_left_app. Qed.

Lemma col_after_nolf : forall t col, ~ In LF t -> col_after col t = col + length t.
Proof.
  induction t as [|c t IH]; intros col H; simpl; [lia|].
  unfold col_after in *. simpl. destruct (ch c LF) eqn:E.
  - apply ch_eq in E. subst. exfalso; apply H; left; reflexivity.
  - rewrite IH; [lia|]. intros Hin; apply H; right; exact Hin.
Qed.

(** [adv k t s s']: [s'] is [s] moved over the text [t], each newline in it
    counting [k] times for the line number. *)
Definition adv (k : nat) (t : bytes) (s s' : lex) : Prop :=
  l_rest s = t ++ l_rest s' /\
  l_off s' = l_off s + length t /\
  l_col s' = col_after (l_col s) t /\
  l_line s' = l_line s + k * newlines t.

Lemma adv_refl : forall k s, adv k [] s s.
Proof. intros. repeat split; simpl; try lia. change (newlines []) with 0. lia. Qed.

Lemma adv_trans : forall k x y s1 s2 s3,
  adv k x s1 s2 -> adv k y s2 s3 -> adv k (x ++ y) s1 s3.
Proof.
  intros k x y s1 s2 s3 (A1 & A2 & A3 & A4) (B1 & B2 & B3 & B4).
  repeat split.
  - rewrite A1, B1, app_assoc; reflexivity.
  - rewrite app_length; lia.
  - rewrite col_after_app, B3, A3; reflexivity.
  - rewrite newlines_app, Nat.mul_add_distr_l; lia.
Qed.

Lemma adv_fun : forall k t s s1 s2, adv k t s s1 -> adv k t s s2 -> s1 = s2.
Proof.
  intros k t s [l1 o1 c1 r1] [l2 o2 c2 r2] (A1 & A2 & A3 & A4) (B1 & B2 & B3 & B4).
  simpl in *. rewrite A1 in B1. apply app_inv_head in B1. subst. f_equal; congruence.
Qed.

(** Canonical advanced state. *)
Definition move (k : nat) (t : bytes) (s : lex) : lex :=
  Lex (l_line s + k * newlines t) (l_off s + length t) (col_after (l_col s) t)
      (skipn (length t) (l_rest s)).
Lemma move_adv : forall k t s r, l_rest s = t ++ r -> adv k t s (move k t s).
Proof.
  intros k t s r H. repeat split. simpl. rewrite H, skipn_app, Nat.sub_diag.
  rewrite skipn_all. simpl. reflexivity.
Qed.

Lemma adv_nolf : forall k k' t s s', ~ In LF t -> adv k t s s' -> adv k' t s s'.
Proof.
  intros k k' t s s' N (A1 & A2 & A3 & A4). repeat split; auto.
  rewrite newlines_none in * by auto. lia.
Qed.

Lemma text_between_adv : forall k t s s', adv k t s s' -> text_between s s' = t.
Proof.
  intros k t s s' (A1 & A2 & _). unfold text_between. rewrite A1, A2.
  replace (l_off s + length t - l_off s) with (length t) by lia.
  rewrite firstn_app, Nat.sub_diag, firstn_all. simpl. apply app_nil_r.
Qed.

(** ** Blanks *)

Lemma blank_snoc : forall t w c, Blank t w -> blank_char c -> Blank (t ++ [c]) (w ++ [c]).
Proof.
  intros t w c H Hc. inversion H; subst.
  - constructor. apply Forall_app; auto.
  - rewrite <- app_assoc. simpl. rewrite <- app_assoc. simpl.
    econstructor; eauto. apply Forall_app; auto.
Qed.

Definition token_start (c : ascii) : Prop := ~ blank_char c /\ c <> ";"%char.

Lemma cw_loop_spec : forall rest line off col inside acc w s1,
  cw_loop line off col inside acc rest = (w, s1) ->
  forall pre,
  (if inside then exists t0 w0 body, pre = t0 ++ ";"%char :: body /\ Blank t0 w0 /\ ~ In LF body
   else Blank pre acc) ->
  (forall c r, l_rest s1 = c :: r ->
     token_start c /\
     exists bl, rest = bl ++ l_rest s1 /\ Blank (pre ++ bl) w /\
       l_off s1 = off + length bl /\ l_col s1 = col_after col bl /\
       l_line s1 = line + newlines bl) /\
  (l_rest s1 = [] -> Trailing (pre ++ rest)).
Proof.
  induction rest as [|byte rest IH]; intros line off col inside acc w s1 E pre P.
  { simpl in E. inversion E; subst; clear E. simpl. split; [discriminate|].
    intros _. rewrite app_nil_r. destruct inside.
    - destruct P as (t0 & w0 & body & -> & B & N). eapply trail_comment; eauto.
    - eapply trail_blank; eauto. }
  cbn [cw_loop] in E.
  set (inside' := if ch byte ";" then true else inside) in *.
  destruct (negb (is_whitespace byte) && negb inside') eqn:Stop.
  { inversion E; subst; clear E. simpl.
    apply andb_true_iff in Stop as [S1 S2]. apply negb_true_iff in S1, S2.
    unfold inside' in S2. destruct (ch byte ";") eqn:Esemi; [discriminate|].
    subst inside. apply isw_false in S1. apply ch_neq in Esemi.
    split; [|discriminate]. intros c r Er. inversion Er; subst. split; [split; auto|].
    exists []. simpl. rewrite app_nil_r. repeat split; auto. }
  (* the invariant after reading [byte] *)
  assert (P' : if inside' then
             exists t0 w0 body, pre ++ [byte] = t0 ++ ";"%char :: body /\ Blank t0 w0 /\
                (ch byte LF = false -> ~ In LF body) /\
                (ch byte LF = true -> exists body0, body = body0 ++ [LF] /\ ~ In LF body0)
           else Blank (pre ++ [byte]) (acc ++ [byte])).
  { unfold inside' in *. destruct (ch byte ";") eqn:Esemi.
    - apply ch_eq in Esemi. subst byte. destruct inside.
      + destruct P as (t0 & w0 & body & -> & B & N).
        exists t0, w0, (body ++ [";"%char]). rewrite <- app_assoc. split; [reflexivity|].
        split; [exact B|]. split; [|discriminate].
        intros _ Hin. apply in_app_or in Hin as [Hin|[Hin|[]]]; [contradiction|discriminate].
      + exists pre, acc, []. split; [reflexivity|]. split; [exact P|]. split; [intros _ []|discriminate].
    - destruct inside.
      + destruct P as (t0 & w0 & body & -> & B & N).
        exists t0, w0, (body ++ [byte]). rewrite <- app_assoc. split; [reflexivity|].
        split; [exact B|]. split.
        * intros NL Hin. apply in_app_or in Hin as [Hin|[Hin|[]]]; [contradiction|].
          apply ch_neq in NL. contradiction.
        * intros NL. apply ch_eq in NL. subst byte. eauto.
      + rewrite andb_true_r in Stop. apply negb_false_iff, isw_iff in Stop.
        apply blank_snoc; auto. }
  destruct rest as [|byte2 rest'].
  { inversion E; subst; clear E. simpl. split; [discriminate|]. intros _.
    destruct inside'.
    - destruct P' as (t0 & w0 & body & Ep & B & N1 & N2). rewrite Ep.
      destruct (ch byte LF) eqn:NL.
      + destruct (N2 eq_refl) as (body0 & -> & N). 
        apply (trail_blank _ [LF]). apply (blank_comment t0 w0 body0 []); auto.
      + eapply trail_comment; eauto.
    - econstructor; eauto. }
  assert (SH : forall (Q : bytes -> Prop), (Q (pre ++ byte :: byte2 :: rest') <-> Q ((pre ++ [byte]) ++ byte2 :: rest'))).
  { intros Q. rewrite <- app_assoc. simpl. tauto. }
  destruct (ch byte LF) eqn:NL.
  - destruct inside' eqn:Ei.
    + destruct P' as (t0 & w0 & body & Ep & B & _ & N2).
      destruct (N2 eq_refl) as (body0 & -> & N).
      specialize (IH _ _ _ _ _ _ _ E (pre ++ [byte])).
      assert (Bp : Blank (pre ++ [byte]) [byte]).
      { rewrite Ep. apply ch_eq in NL. subst byte. apply (blank_comment t0 w0 body0 []); auto. }
      destruct (IH Bp) as [I1 I2]. split.
      * intros c r Er. destruct (I1 c r Er) as (T & bl & Hr & HB & Ho & Hc & Hl).
        split; auto. exists (byte :: bl). rewrite Hr. split; [reflexivity|].
        split; [rewrite <- app_assoc in HB; exact HB|]. simpl. unfold col_after; simpl.
        rewrite newlines_cons, NL. repeat split; auto; lia.
      * intros Er. apply SH. auto.
    + specialize (IH _ _ _ _ _ _ _ E (pre ++ [byte]) P').
      destruct IH as [I1 I2]. split.
      * intros c r Er. destruct (I1 c r Er) as (T & bl & Hr & HB & Ho & Hc & Hl).
        split; auto. exists (byte :: bl). rewrite Hr. split; [reflexivity|].
        split; [rewrite <- app_assoc in HB; exact HB|]. simpl. unfold col_after; simpl.
        rewrite newlines_cons, NL. repeat split; auto; lia.
      * intros Er. apply SH. auto.
  - specialize (IH _ _ _ _ _ _ _ E (pre ++ [byte])).
    assert (P2 : if inside' then exists t0 w0 body, pre ++ [byte] = t0 ++ ";"%char :: body /\ Blank t0 w0 /\ ~ In LF body
                 else Blank (pre ++ [byte]) (acc ++ [byte])).
    { destruct inside'; auto. destruct P' as (t0 & w0 & body & Ep & B & N1 & _). exists t0, w0, body. auto. }
    destruct (IH P2) as [I1 I2]. split.
    * intros c r Er. destruct (I1 c r Er) as (T & bl & Hr & HB & Ho & Hc & Hl).
      split; auto. exists (byte :: bl). rewrite Hr. split; [reflexivity|].
      split; [rewrite <- app_assoc in HB; exact HB|]. simpl. unfold col_after; simpl.
      rewrite newlines_cons, NL. repeat split; auto; lia.
    * intros Er. apply SH. auto.
Qed.

(** Soundness of [consume_whitespace]. *)
Lemma cw_sound : forall s w s1, consume_whitespace s = (w, s1) ->
  (forall c r, l_rest s1 = c :: r ->
     token_start c /\ exists bl, Blank bl w /\ adv 1 bl s s1) /\
  (l_rest s1 = [] -> Trailing (l_rest s)).
Proof.
  intros s w s1 E.
  destruct (cw_loop_spec _ _ _ _ _ _ _ _ E []) as [I1 I2].
  { apply blank_ws; constructor. }
  split; auto. intros c r Er. destruct (I1 c r Er) as (T & bl & Hr & HB & Ho & Hc & Hl).
  split; auto. exists bl. split; auto. repeat split; auto. lia.
Qed.

Lemma cw_run_ws : forall w rest line off col acc, Forall blank_char w -> rest <> [] ->
  cw_loop line off col false acc (w ++ rest) =
  cw_loop (line + newlines w) (off + length w) (col_after col w) false (acc ++ w) rest.
Proof.
  induction w as [|c w IH]; intros rest line off col acc F N.
  - simpl. rewrite app_nil_r, !Nat.add_0_r. reflexivity.
  - inversion F as [|? ? Hc Fw]; subst. simpl app. cbn [cw_loop].
    assert (Es : ch c ";" = false).
    { apply ch_neq. intros ->. destruct Hc as [|[|[|]]]; discriminate. }
    rewrite Es. apply isw_iff in Hc. rewrite Hc. simpl negb. simpl andb.
    destruct (w ++ rest) as [|d r] eqn:Ewr.
    { apply app_eq_nil in Ewr as [_ ->]. contradiction. }
    rewrite <- Ewr. cbv iota.
    destruct (ch c LF) eqn:NL.
    + rewrite IH by auto. rewrite newlines_cons, NL, <- app_assoc. simpl.
      unfold col_after; simpl. rewrite NL. f_equal; lia.
    + rewrite IH by auto. rewrite newlines_cons, NL, <- app_assoc. simpl.
      unfold col_after; simpl. rewrite NL. f_equal; lia.
Qed.

Lemma cw_run_comment : forall body rest line off col acc, ~ In LF body -> rest <> [] ->
  cw_loop line off col true acc (body ++ LF :: rest) =
  cw_loop (S line) (off + length body + 1) 0 false [LF] rest.
Proof.
  induction body as [|c body IH]; intros rest line off col acc N NE.
  - simpl. destruct rest as [|d r]; [contradiction|]. f_equal; lia.
  - simpl app. cbn [cw_loop].
    assert (NL : ch c LF = false).
    { apply ch_neq. intros ->. apply N; left; reflexivity. }
    assert (N' : ~ In LF body) by (intros H; apply N; right; exact H).
    replace (if ch c ";" then true else true) with true by (destruct (ch c ";"); reflexivity).
    rewrite andb_false_r, NL.
    destruct (body ++ LF :: rest) as [|d r] eqn:Eb.
    { destruct body; discriminate. }
    rewrite <- Eb. cbv iota. rewrite IH by auto. simpl. f_equal; lia.
Qed.

Lemma cw_run_blank : forall bl w, Blank bl w ->
  forall rest line off col, rest <> [] ->
  cw_loop line off col false [] (bl ++ rest) =
  cw_loop (line + newlines bl) (off + length bl) (col_after col bl) false w rest.
Proof.
  intros bl w H. induction H as [w F|t w' body w Ht IH N F]; intros rest line off col NE.
  - rewrite cw_run_ws by auto. reflexivity.
  - rewrite <- app_assoc. rewrite IH by (simpl; discriminate).
    replace ((";"%char :: body ++ LF :: w) ++ rest) with (";"%char :: body ++ LF :: (w ++ rest)).
    2: { simpl. rewrite <- app_assoc. reflexivity. }
    cbn [cw_loop].
    change (ch ";" ";") with true. change (ch ";" LF) with false. rewrite andb_false_r.
    destruct (body ++ LF :: w ++ rest) as [|d r] eqn:Eb.
    { destruct body; discriminate. }
    rewrite <- Eb. cbv iota.
    assert (NE2 : w ++ rest <> []) by (intros Eq; apply app_eq_nil in Eq as [_ ->]; contradiction).
    rewrite cw_run_comment by auto. rewrite cw_run_ws by auto.
    assert (EN : newlines (t ++ ";"%char :: body ++ LF :: w) = newlines t + S (newlines w)).
    { rewrite newlines_app, newlines_cons, newlines_app, (newlines_cons LF), (newlines_none body) by auto.
      reflexivity. }
    assert (EL : length (t ++ ";"%char :: body ++ LF :: w) = length t + S (length body + S (length w))).
    { rewrite app_length. simpl. rewrite app_length. reflexivity. }
    assert (EC : col_after col (t ++ ";"%char :: body ++ LF :: w) = col_after 0 w).
    { rewrite col_after_app. unfold col_after. simpl. rewrite fold_left_app. reflexivity. }
    rewrite EN, EL, EC. f_equal; lia.
Qed.

(** Completeness of [consume_whitespace]. *)
Lemma cw_complete : forall bl w s c r, Blank bl w -> l_rest s = bl ++ c :: r -> token_start c ->
  consume_whitespace s = (w, move 1 bl s) /\ l_rest (move 1 bl s) = c :: r.
Proof.
  intros bl w s c r B E [T1 T2].
  assert (R : l_rest (move 1 bl s) = c :: r).
  { simpl. rewrite E, skipn_app, Nat.sub_diag, skipn_all. reflexivity. }
  split; auto.
  unfold consume_whitespace. rewrite E.
  rewrite (cw_run_blank _ _ B) by discriminate. cbn [cw_loop].
  apply ch_neq in T2. rewrite T2. apply isw_false in T1. rewrite T1. simpl.
  f_equal. unfold move. simpl in R. rewrite R. f_equal. lia.
Qed.

(** The rest after skipping blanks, alone. *)
Fixpoint drop_blank (inside : bool) (rest : bytes) : bytes :=
  match rest with
  | [] => []
  | c :: r =>
      let inside := if ch c ";" then true else inside in
      if negb (is_whitespace c) && negb inside then rest
      else if ch c LF then drop_blank false r else drop_blank inside r
  end.

Lemma cw_loop_rest : forall rest line off col inside acc,
  l_rest (snd (cw_loop line off col inside acc rest)) = drop_blank inside rest.
Proof.
  induction rest as [|c rest IH]; intros; [reflexivity|].
  cbn [cw_loop drop_blank].
  set (inside' := if ch c ";" then true else inside).
  destruct (negb (is_whitespace c) && negb inside'); [reflexivity|].
  destruct rest as [|d rest'].
  - destruct (ch c LF); reflexivity.
  - destruct (ch c LF).
    + destruct inside'; apply IH.
    + apply IH.
Qed.

Lemma drop_blank_ws : forall w r, Forall blank_char w -> drop_blank false (w ++ r) = drop_blank false r.
Proof.
  induction w as [|c w IH]; intros r F; [reflexivity|].
  inversion F; subst. simpl.
  assert (Es : ch c ";" = false).
  { apply ch_neq. intros ->. destruct H1 as [|[|[|]]]; discriminate. }
  rewrite Es. apply isw_iff in H1. rewrite H1. simpl. rewrite IH by auto. destruct (ch c LF); auto.
Qed.
Lemma drop_blank_comment : forall body r, ~ In LF body ->
  drop_blank true (body ++ r) = drop_blank true r.
Proof.
  induction body as [|c body IH]; intros r N; [reflexivity|].
  simpl. assert (NL : ch c LF = false) by (apply ch_neq; intros ->; apply N; left; reflexivity).
  rewrite NL. replace (if ch c ";" then true else true) with true by (destruct (ch c ";"); auto).
  rewrite andb_false_r. apply IH. intros H; apply N; right; exact H.
Qed.
Lemma drop_blank_blank : forall bl w, Blank bl w -> forall r, drop_blank false (bl ++ r) = drop_blank false r.
Proof.
  intros bl w H. induction H as [w F|t w' body w Ht IH N F]; intros r.
  - apply drop_blank_ws; auto.
  - rewrite <- app_assoc, IH. simpl. rewrite <- app_assoc. rewrite drop_blank_comment by auto.
    simpl. apply drop_blank_ws; auto.
Qed.
Lemma drop_blank_trailing : forall t, Trailing t -> drop_blank false t = [].
Proof.
  intros t H. inversion H; subst.
  - rewrite <- (app_nil_r t). rewrite (drop_blank_blank _ _ H0). reflexivity.
  - rewrite (drop_blank_blank _ _ H0). simpl. rewrite <- (app_nil_r body).
    rewrite drop_blank_comment by auto. reflexivity.
Qed.
Lemma cw_trailing : forall s, Trailing (l_rest s) -> l_rest (snd (consume_whitespace s)) = [].
Proof. intros s H. unfold consume_whitespace. rewrite cw_loop_rest. apply drop_blank_trailing; auto. Qed.

(** ** Single characters *)

Lemma incr_adv : forall k t s r, l_rest s = t ++ r -> ~ In LF t -> adv k t s (incr (length t) s).
Proof.
  intros k t s r E N. repeat split; simpl; auto.
  - rewrite E, skipn_app, Nat.sub_diag, skipn_all. reflexivity.
  - rewrite col_after_nolf; auto.
  - rewrite newlines_none by auto. lia.
Qed.

Lemma count_cont_app : forall ks r, Forall (fun k => is_cont k = true) ks -> boundary r ->
  count_cont (ks ++ r) = length ks.
Proof.
  induction ks as [|k ks IH]; intros r F B; simpl.
  - destruct r as [|d r]; simpl; auto. simpl in B. rewrite B. reflexivity.
  - inversion F; subst. rewrite H1. f_equal. auto.
Qed.

Lemma conts_no_lf : forall ks, Forall (fun k => is_cont k = true) ks -> ~ In LF ks.
Proof.
  intros ks F Hin. rewrite Forall_forall in F. apply F in Hin. discriminate.
Qed.

Lemma consume_char_spec : forall s c r, utf8 (l_rest s) -> l_rest s = c :: r ->
  exists ks r' s', r = ks ++ r' /\ Forall (fun k => is_cont k = true) ks /\
    (nat_of_ascii c <= 127 -> ks = []) /\
    utf8 r' /\ consume_char s = Ok (c, s') /\ adv 1 (c :: ks) s s' /\ l_rest s' = r'.
Proof.
  intros s c r U E. rewrite E in U.
  destruct (utf8_cons_inv c r U) as (ks & r' & -> & _ & Ur & _ & FK & D).
  unfold consume_char. rewrite E.
  rewrite (count_cont_app ks r' FK (utf8_boundary _ Ur)).
  exists ks, r'.
  destruct (ch c LF) eqn:NL.
  - apply ch_eq in NL. subst c.
    assert (ks = []) as ->.
    { destruct D as [[_ D]|[D _]]; auto. vm_compute in D. lia. }
    eexists. split; [reflexivity|]. split; [constructor|]. split; [reflexivity|].
    split; [exact Ur|]. split; [reflexivity|].
    simpl length. simpl. rewrite E. simpl. split; [|reflexivity].
    repeat split; simpl; auto; try lia.
    rewrite E; reflexivity.
  - eexists. split; [reflexivity|]. split; [exact FK|].
    split. { intros A. destruct D as [[_ D]|[D _]]; auto. lia. }
    split; [exact Ur|]. split; [reflexivity|].
    change (S (length ks)) with (length (c :: ks)).
    assert (A : adv 1 (c :: ks) s (incr (length (c :: ks)) s)).
    { apply (incr_adv 1 (c :: ks) s r'); [exact E|].
      intros [H|H]; [apply ch_neq in NL; contradiction|]. eapply conts_no_lf; eauto. }
    split; [exact A|]. destruct A as (A & _). rewrite E in A.
    simpl in A. inversion A as [A']. apply app_inv_head in A'. simpl. congruence.
Qed.

(** ** Identifiers *)

Lemma ident_app_plain : forall ks t, Forall plain ks -> Ident t -> Ident (ks ++ t).
Proof. induction ks; intros t F I; simpl; auto. inversion F; subst. constructor; auto. Qed.

Lemma ident_drop_conts : forall ks t, Forall (fun k => is_cont k = true) ks -> Ident (ks ++ t) -> Ident t.
Proof.
  induction ks as [|k ks IH]; intros t F I; simpl in *; auto.
  inversion F; subst. inversion I; subst; auto. discriminate.
Qed.

Lemma stops_boundary : forall r, stops r -> boundary r.
Proof.
  intros [|c r] H; simpl in *; auto.
  destruct (is_cont c) eqn:E; auto. apply is_cont_iff in E. apply delimiter_ascii in H. lia.
Qed.

Lemma adv_length : forall k t s s', adv k t s s' -> length (l_rest s) = length t + length (l_rest s').
Proof. intros k t s s' (A & _). rewrite A, app_length. reflexivity. Qed.

Lemma adv_scale : forall c ks s s', adv 1 (c :: ks) s s' -> ch c LF = false ->
  Forall (fun k => is_cont k = true) ks -> adv 2 (c :: ks) s s'.
Proof.
  intros c ks s s' A NL F. eapply adv_nolf; [|exact A].
  intros [H|H]; [apply ch_neq in NL; contradiction|]. eapply conts_no_lf; eauto.
Qed.

Lemma BS_ascii : nat_of_ascii BS <= 127. Proof. vm_compute. lia. Qed.

(** Soundness: what the identifier loop does on any UTF-8 rest. *)
Lemma cis_sound : forall fuel s, utf8 (l_rest s) -> length (l_rest s) < fuel ->
  (exists t s', cis_loop fuel s = Ok s' /\ Ident t /\ stops (l_rest s') /\
                utf8 (l_rest s') /\ adv 2 t s s') \/
  (cis_loop fuel s = Hang /\ exists t, l_rest s = t ++ [BS] /\ Ident t).
Proof.
  induction fuel as [|f IH]; intros s U L; [lia|].
  cbn [cis_loop]. unfold peek_char. destruct (l_rest s) as [|c r] eqn:Er.
  { left. exists [], s. rewrite Er. split; [reflexivity|]. split; [constructor|]. split; [exact I|]. split; [exact U|]. apply adv_refl. }
  assert (STOP : delimiter c -> exists t s', Ok s = Ok s' /\ Ident t /\ stops (l_rest s') /\
                utf8 (l_rest s') /\ adv 2 t s s').
  { intros Hc. exists [], s. rewrite Er. split; [reflexivity|]. split; [constructor|]. split; [exact Hc|]. split; [exact U|]. apply adv_refl. }
  destruct (kindP c) as [W | -> | -> | HN HD | -> | -> | HD HN HC].
  - left. apply STOP. left; auto.
  - left. change (ch "(" BS) with false. cbv iota. apply STOP. right; left; auto.
  - left. change (ch ")" BS) with false. cbv iota. apply STOP. right; right; left; auto.
  - (* number *)
    assert (NB : c <> BS).
    { intros ->. destruct HN as [[H1 H2]|[|]]; try discriminate. vm_compute in H2. lia. }
    pose proof NB as NB'. apply ch_neq in NB'. rewrite NB'.
    rewrite <- Er in U.
    destruct (consume_char_spec s c r U Er) as (ks & r' & s' & -> & FK & AK & Ur & EC & A & ER).
    rewrite EC. cbn [bind].
    assert (PL : plain c) by (split; auto).
    assert (NL : ch c LF = false).
    { apply ch_neq. intros ->. apply HD. left; left; reflexivity. }
    destruct (IH s') as [(t & s2 & E2 & I2 & S2 & U2 & A2)|(E2 & t & Et & It)].
    + rewrite ER; auto.
    + rewrite ER. simpl in L. rewrite app_length in L. lia.
    + left. exists ((c :: ks) ++ t), s2. split; [exact E2|].
      split. { simpl. constructor; auto. apply ident_app_plain; auto. eapply Forall_impl; [|exact FK]. apply cont_plain. }
      split; auto. split; auto. eapply adv_trans; eauto. apply adv_scale; auto.
    + right. split; auto. exists (c :: ks ++ t). split.
      * simpl. f_equal. rewrite ER in Et. rewrite Et, app_assoc. reflexivity.
      * constructor; auto. apply ident_app_plain; auto. eapply Forall_impl; [|exact FK]. apply cont_plain.
  - (* keyword char *)
    change (ch ":" BS) with false. cbv iota.
    rewrite <- Er in U.
    destruct (consume_char_spec s ":"%char r U Er) as (ks & r' & s' & -> & FK & AK & Ur & EC & A & ER).
    rewrite EC. cbn [bind].
    assert (PL : plain ":"%char).
    { split; [|discriminate]. intros [[|[|[|]]]|[|[|]]]; discriminate. }
    assert (NL : ch ":" LF = false) by reflexivity.
    destruct (IH s') as [(t & s2 & E2 & I2 & S2 & U2 & A2)|(E2 & t & Et & It)].
    + rewrite ER; auto.
    + rewrite ER. simpl in L. rewrite app_length in L. lia.
    + left. exists ((":"%char :: ks) ++ t), s2. split; [exact E2|].
      split. { simpl. constructor; auto. apply ident_app_plain; auto. eapply Forall_impl; [|exact FK]. apply cont_plain. }
      split; auto. split; auto. eapply adv_trans; eauto. apply adv_scale; auto.
    + right. split; auto. exists (":"%char :: ks ++ t). split.
      * simpl. f_equal. rewrite ER in Et. rewrite Et, app_assoc. reflexivity.
      * constructor; auto. apply ident_app_plain; auto. eapply Forall_impl; [|exact FK]. apply cont_plain.
  - left. change (ch DQ BS) with false. cbv iota. apply STOP. right; right; right; auto.
  - (* symbol char *)
    rewrite <- Er in U.
    destruct (consume_char_spec s c r U Er) as (ks & r' & s' & -> & FK & AK & Ur & EC & A & ER).
    rewrite EC. cbn [bind].
    destruct (ch c BS) eqn:NB.
    + apply ch_eq in NB. subst c. assert (ks = []) by (apply AK; exact BS_ascii). subst ks. simpl app in *.
      destruct r' as [|e r2].
      { (* trailing backslash *) right. split.
        - unfold consume_char. rewrite ER. reflexivity.
        - exists []. split; [reflexivity|constructor]. }
      rewrite <- ER in Ur.
      destruct (consume_char_spec s' e r2 Ur ER) as (ks2 & r3 & s2 & -> & FK2 & AK2 & Ur2 & EC2 & A2 & ER2).
      rewrite EC2. cbn [bind].
      set (s3 := if ch e LF then next_line s2 else s2).
      assert (A3 : adv 2 (BS :: e :: ks2) s s3).
      { change (BS :: e :: ks2) with ([BS] ++ (e :: ks2)).
        destruct A as (A1' & A2' & A3' & A4'). destruct A2 as (B1 & B2 & B3 & B4).
        unfold s3. destruct (ch e LF) eqn:NL.
        - apply ch_eq in NL. subst e. assert (ks2 = []) by (apply AK2; vm_compute; lia). subst ks2.
          simpl app in *. change (newlines [LF]) with 1 in *. change (newlines [BS]) with 0 in *.
          unfold adv. change (newlines [BS; LF]) with 1.
          split; [rewrite Er; simpl; rewrite ER2; reflexivity|].
          split; [simpl in *; lia|]. split; [reflexivity|]. simpl in *; lia.
        - assert (N0 : newlines (e :: ks2) = 0).
          { apply newlines_none. intros [H|H]; [apply ch_neq in NL; contradiction|]. eapply conts_no_lf; eauto. }
          repeat split.
          + rewrite Er. simpl. rewrite ER2. reflexivity.
          + rewrite B2, A2'. simpl. lia.
          + rewrite B3, A3'. reflexivity.
          + rewrite B4, A4', newlines_app, N0. simpl. lia. }
      assert (ER3 : l_rest s3 = r3) by (unfold s3; destruct (ch e LF); simpl; exact ER2).
      assert (IDE : forall t, Ident t -> Ident (BS :: e :: ks2 ++ t)).
      { intros t It. apply id_esc. apply ident_app_plain; auto. eapply Forall_impl; [|exact FK2]. apply cont_plain. }
      destruct (IH s3) as [(t & s4 & E4 & I4 & S4 & U4 & A4)|(E4 & t & Et & It)].
      * rewrite ER3; auto.
      * rewrite ER3. simpl in L. rewrite app_length in L. lia.
      * left. exists ((BS :: e :: ks2) ++ t), s4. split; [exact E4|].
        split. { simpl. apply IDE; auto. }
        split; auto. split; auto. eapply adv_trans; eauto.
      * right. split; auto. exists (BS :: e :: ks2 ++ t). split.
        -- simpl. do 2 f_equal. rewrite ER3 in Et. rewrite Et, app_assoc. reflexivity.
        -- apply IDE; auto.
    + apply ch_neq in NB.
      assert (PL : plain c) by (split; auto).
      assert (NL : ch c LF = false).
      { apply ch_neq. intros ->. apply HD. left; left; reflexivity. }
      destruct (IH s') as [(t & s2 & E2 & I2 & S2 & U2 & A2)|(E2 & t & Et & It)].
      * rewrite ER; auto.
      * rewrite ER. simpl in L. rewrite app_length in L. lia.
      * left. exists ((c :: ks) ++ t), s2. split; [exact E2|].
        split. { simpl. constructor; auto. apply ident_app_plain; auto. eapply Forall_impl; [|exact FK]. apply cont_plain. }
        split; auto. split; auto. eapply adv_trans; eauto. apply adv_scale; auto.
      * right. split; auto. exists (c :: ks ++ t). split.
        -- simpl. f_equal. rewrite ER in Et. rewrite Et, app_assoc. reflexivity.
        -- constructor; auto. apply ident_app_plain; auto. eapply Forall_impl; [|exact FK]. apply cont_plain.
Qed.

(** Identifiers are unambiguous. *)
Lemma ident_unique : forall t1 r1 t2 r2, Ident t1 -> Ident t2 ->
  t1 ++ r1 = t2 ++ r2 -> stops r1 -> stops r2 -> t1 = t2.
Proof.
  intros t1 r1 t2 r2 I1. revert t2. induction I1 as [|c t P I IH|c t I IH]; intros t2 I2 E S1 S2.
  - inversion I2; subst; auto; simpl in E; subst r1; simpl in S1.
    + destruct H. contradiction.
    + exfalso. destruct S1 as [[|[|[|]]]|[|[|]]]; discriminate.
  - inversion I2; subst; simpl in E.
    + subst r2. simpl in S2. destruct P. contradiction.
    + inversion E; subst. f_equal. eapply IH; eauto.
    + inversion E; subst. destruct P. contradiction.
  - inversion I2; subst; simpl in E.
    + subst r2. exfalso. simpl in S2. destruct S2 as [[|[|[|]]]|[|[|]]]; discriminate.
    + inversion E; subst. destruct H. contradiction.
    + inversion E; subst. do 2 f_equal. eapply IH; eauto.
Qed.

Lemma ident_no_trailing : forall t1 r1 t2, Ident t1 -> Ident t2 ->
  t1 ++ r1 = t2 ++ [BS] -> stops r1 -> False.
Proof.
  intros t1 r1 t2 I1. revert t2. induction I1 as [|c t P I IH|c t I IH]; intros t2 I2 E S1.
  - inversion I2; subst; simpl in E; subst r1; simpl in S1.
    + destruct S1 as [[|[|[|]]]|[|[|]]]; discriminate.
    + destruct H. contradiction.
    + destruct S1 as [[|[|[|]]]|[|[|]]]; discriminate.
  - inversion I2; subst; simpl in E; inversion E; subst.
    + destruct P. contradiction.
    + eapply IH; eauto.
    + destruct P. contradiction.
  - inversion I2; subst; simpl in E; inversion E; subst.
    + destruct H. contradiction.
    + eapply IH; eauto.
Qed.

(** ** Strings *)

Lemma strbody_app_conts : forall ks t, Forall (fun k => is_cont k = true) ks -> StrBody t -> StrBody (ks ++ t).
Proof.
  induction ks; intros t F I; simpl; auto. inversion F; subst. constructor; auto.
  - intros ->. discriminate.
  - intros ->. discriminate.
Qed.

(** State after the [if next_char == '\n' { self.next_line(); }] and the
    following [consume_char]. *)
Lemma string_step : forall s c r, utf8 (l_rest s) -> l_rest s = c :: r ->
  exists ks r' s', r = ks ++ r' /\ Forall (fun k => is_cont k = true) ks /\
    (nat_of_ascii c <= 127 -> ks = []) /\ utf8 r' /\
    consume_char (if ch c LF then next_line s else s) = Ok (c, s') /\
    adv 2 (c :: ks) s s' /\ l_rest s' = r'.
Proof.
  intros s c r U E. destruct (ch c LF) eqn:NL.
  - assert (E' : l_rest (next_line s) = c :: r) by exact E.
    destruct (consume_char_spec (next_line s) c r U E') as (ks & r' & s' & -> & FK & AK & Ur & EC & A & ER).
    exists ks, r', s'. split; auto. split; auto. split; auto. split; auto. split; auto. split; auto.
    apply ch_eq in NL. subst c. assert (ks = []) by (apply AK; vm_compute; lia). subst ks.
    destruct A as (A1 & A2 & A3 & A4). change (newlines [LF]) with 1 in *. unfold adv.
    change (newlines [LF]) with 1. simpl in *. repeat split; auto; lia.
  - destruct (consume_char_spec s c r U E) as (ks & r' & s' & -> & FK & AK & Ur & EC & A & ER).
    exists ks, r', s'. do 6 (split; auto). apply adv_scale; auto.
Qed.

(** Extended bodies: [esc] tells whether the previous character was an
    unescaped backslash. *)
Definition StrBodyE (esc : bool) (t : bytes) : Prop :=
  if esc then exists c t', t = c :: t' /\ StrBody t' else StrBody t.

Lemma string_sound : forall fuel esc s, utf8 (l_rest s) -> length (l_rest s) < fuel ->
  (exists t s', string_loop fuel esc s = Ok (Some s') /\ StrBodyE esc t /\
     utf8 (l_rest s') /\ (exists r, l_rest s' = DQ :: r) /\ adv 2 t s s') \/
  (string_loop fuel esc s = Ok None /\ ~ exists t r, StrBodyE esc t /\ l_rest s = t ++ DQ :: r).
Proof.
  induction fuel as [|f IH]; intros esc s U L; [lia|].
  cbn [string_loop]. unfold peek_char. destruct (l_rest s) as [|c r] eqn:Er.
  { right. split; auto. intros (t & r & _ & E). destruct t; discriminate. }
  rewrite <- Er in U.
  destruct (string_step s c r U Er) as (ks & r' & s' & -> & FK & AK & Ur & EC & A & ER).
  destruct (ch c DQ && negb esc) eqn:Stop.
  - apply andb_true_iff in Stop as [S1 S2]. apply ch_eq in S1. subst c.
    destruct esc; [discriminate|]. left. exists [], s.
    change (ch DQ LF) with false. cbv iota. split; auto. split; [constructor|]. split; auto. split; eauto.
    apply adv_refl.
  - rewrite EC. cbn [bind].
    assert (HL : length (l_rest s') < f) by (rewrite ER; simpl in L; rewrite app_length in L; lia).
    assert (HU : utf8 (l_rest s')) by (rewrite ER; auto).
    destruct esc.
    + simpl negb. cbv iota.
      destruct (IH false s' HU HL) as [(t & s2 & E2 & B2 & U2 & R2 & A2)|(E2 & N2)].
      * left. exists ((c :: ks) ++ t), s2. split; auto. split.
        { simpl. exists c, (ks ++ t). split; auto. apply strbody_app_conts; auto. }
        split; auto. split; auto. eapply adv_trans; eauto.
      * right. split; auto. intros (t & r & (c' & t' & -> & B) & E).
        simpl in E. inversion E; subst c'. apply N2.
        destruct (forall_cont_app_eq _ _ _ _ FK H1 eq_refl) as (k2 & -> & E3).
        exists k2, r. rewrite ER. split; auto. simpl. clear -B FK.
        induction FK; simpl in *; auto. inversion B; subst; auto. discriminate.
    + simpl negb. cbv iota. rewrite andb_true_r in Stop. apply ch_neq in Stop.
      destruct (ch c BS) eqn:NB.
      * apply ch_eq in NB. subst c. assert (ks = []) by (apply AK; exact BS_ascii). subst ks. simpl app in *.
        destruct (IH true s' HU HL) as [(t & s2 & E2 & B2 & U2 & R2 & A2)|(E2 & N2)].
        -- left. exists ([BS] ++ t), s2. split; auto. split.
           { destruct B2 as (c' & t' & -> & B). simpl. apply sb_esc; auto. }
           split; auto. split; auto. eapply adv_trans; eauto.
        -- right. split; auto. intros (t & r & B & E). simpl in B.
           inversion B; subst; simpl in E; try discriminate.
           ++ inversion E; subst. contradiction.
           ++ inversion E; subst. apply N2. exists (c :: t0), r. rewrite H1. split; auto. simpl. eauto.
      * apply ch_neq in NB.
        destruct (IH false s' HU HL) as [(t & s2 & E2 & B2 & U2 & R2 & A2)|(E2 & N2)].
        -- left. exists ((c :: ks) ++ t), s2. split; auto. split.
           { simpl. constructor; auto. apply strbody_app_conts; auto. }
           split; auto. split; auto. eapply adv_trans; eauto.
        -- right. split; auto. intros (t & r & B & E). simpl in B.
           inversion B; subst; simpl in E; try (inversion E; subst; contradiction).
           inversion E; subst.
           apply N2. destruct (forall_cont_app_eq _ _ _ _ FK H4 eq_refl) as (k2 & -> & E3).
           exists k2, r. rewrite E3. split; auto. simpl. clear -H1 FK.
           induction FK; simpl in *; auto. inversion H1; subst; auto. discriminate.
Qed.

Lemma strbody_unique : forall t1 r1 t2 r2, StrBody t1 -> StrBody t2 ->
  t1 ++ DQ :: r1 = t2 ++ DQ :: r2 -> t1 = t2.
Proof.
  intros t1 r1 t2 r2 I1. revert t2. induction I1 as [|c t N1 N2 I IH|c t I IH]; intros t2 I2 E.
  - inversion I2; subst; auto; simpl in E; inversion E; subst; contradiction.
  - inversion I2; subst; simpl in E; inversion E; subst; try contradiction. f_equal. eapply IH; eauto.
  - inversion I2; subst; simpl in E; inversion E; subst; try contradiction. do 2 f_equal. eapply IH; eauto.
Qed.
