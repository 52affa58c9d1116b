(** * Tokens: the [consume] function computes exactly the token relation *)

From Coq Require Import List Ascii Bool Arith Lia.
From Verif Require Import Text Utf8 Res Lexer Spec_grammar Proofs_text Proofs_lexer.
Import ListNotations.

(** ** Triple-quoted strings *)

Lemma q3_prefix : forall x r1 r2, 3 <= length x -> x ++ r2 = quote3 ++ r1 ->
  exists r', x = quote3 ++ r'.
Proof.
  intros x r1 r2 L E. destruct x as [|a [|b0 [|c x]]]; simpl in L; try lia.
  simpl in E. inversion E; subst. exists x. reflexivity.
Qed.

Lemma triple_app_conts : forall ks t, Forall (fun k => is_cont k = true) ks ->
  TripleBody t -> TripleBody (ks ++ t).
Proof.
  induction ks as [|k ks IH]; intros t F I; simpl; auto. inversion F; subst. constructor; auto.
  - intros ->. discriminate.
  - intros r E. inversion E; subst. discriminate.
Qed.

Lemma triple_drop_conts : forall ks t, Forall (fun k => is_cont k = true) ks ->
  TripleBody (ks ++ t) -> TripleBody t.
Proof.
  induction ks as [|k ks IH]; intros t F I; simpl in *; auto. inversion F; subst.
  inversion I; subst; auto. discriminate.
Qed.

Definition TripleBodyE (esc : bool) (t : bytes) : Prop :=
  if esc then exists c t', t = c :: t' /\ TripleBody t' else TripleBody t.

Lemma starts_q3_iff : forall s, starts_with triple_quote s = true <-> exists r, s = quote3 ++ r.
Proof. intros. apply starts_with_iff. Qed.

Lemma triple_sound : forall fuel esc s, utf8 (l_rest s) -> length (l_rest s) < fuel ->
  (exists t s', triple_loop fuel esc s = Ok (Some s') /\ TripleBodyE esc t /\
     utf8 (l_rest s') /\ (exists r, l_rest s' = quote3 ++ r) /\ adv 2 t s s') \/
  (triple_loop fuel esc s = Ok None /\ ~ exists t r, TripleBodyE esc t /\ l_rest s = t ++ quote3 ++ r).
Proof.
  induction fuel as [|f IH]; intros esc s U L; [lia|].
  cbn [triple_loop]. unfold peek_char. destruct (l_rest s) as [|c r] eqn:Er.
  { right. split; auto. intros (t & r & _ & E). destruct t; discriminate. }
  rewrite <- Er in U.
  destruct (string_step s c r U Er) as (ks & r' & s' & -> & FK & AK & Ur & EC & A & ER).
  assert (EL : l_rest (if ch c LF then next_line s else s) = c :: ks ++ r')
    by (destruct (ch c LF); exact Er).
  rewrite EL.
  destruct (starts_with triple_quote (c :: ks ++ r') && negb esc) eqn:Stop.
  - apply andb_true_iff in Stop as [S1 S2]. apply starts_q3_iff in S1 as [r1 S1].
    destruct esc; [discriminate|]. left. exists [], s.
    assert (c = DQ) by (inversion S1; reflexivity). subst c.
    change (ch DQ LF) with false. cbv iota. split; auto. split; [constructor|]. split; auto.
    split; [exists r1; rewrite Er; exact S1|]. apply adv_refl.
  - rewrite EC. cbn [bind].
    assert (HL : length (l_rest s') < f) by (rewrite ER; simpl in L; rewrite app_length in L; lia).
    assert (HU : utf8 (l_rest s')) by (rewrite ER; auto).
    assert (BQ : forall r, boundary (quote3 ++ r)) by reflexivity.
    destruct esc.
    + simpl negb. cbv iota.
      destruct (IH false s' HU HL) as [(t & s2 & E2 & B2 & U2 & R2 & A2)|(E2 & N2)].
      * left. exists ((c :: ks) ++ t), s2. split; auto. split.
        { simpl. exists c, (ks ++ t). split; auto. apply triple_app_conts; auto. }
        split; auto. split; auto. eapply adv_trans; eauto.
      * right. split; auto. intros (t & r & (c' & t' & -> & B) & E).
        simpl in E. inversion E; subst c'. apply N2.
        destruct (forall_cont_app_eq _ _ _ _ FK H1 (BQ r)) as (k2 & -> & E3).
        exists k2, r. rewrite ER. split; auto. simpl. eapply triple_drop_conts; eauto.
    + simpl negb. cbv iota. rewrite andb_true_r in Stop.
      assert (NQ : ~ exists r, c :: ks ++ r' = quote3 ++ r).
      { intros H. apply starts_q3_iff in H. congruence. }
      destruct (ch c BS) eqn:NB.
      * apply ch_eq in NB. subst c. assert (ks = []) by (apply AK; exact BS_ascii). subst ks. simpl app in *.
        destruct (IH true s' HU HL) as [(t & s2 & E2 & B2 & U2 & R2 & A2)|(E2 & N2)].
        -- left. exists ([BS] ++ t), s2. split; auto. split.
           { destruct B2 as (c' & t' & -> & B). simpl. apply tb_esc; auto. }
           split; auto. split; auto. eapply adv_trans; eauto.
        -- right. split; auto. intros (t & r & B & E). simpl in B.
           inversion B; subst; simpl in E; try discriminate.
           ++ inversion E; subst. contradiction.
           ++ inversion E; subst. apply N2. exists (c :: t0), r. rewrite H1. split; auto. simpl. eauto.
      * apply ch_neq in NB.
        destruct (IH false s' HU HL) as [(t & s2 & E2 & B2 & U2 & (r2 & R2) & A2)|(E2 & N2)].
        -- left. exists ((c :: ks) ++ t), s2. split; auto. split.
           { simpl. constructor; auto.
             - intros r E. apply NQ. exists (r ++ r2).
               destruct A2 as (A2 & _). rewrite ER in A2.
               transitivity ((c :: (ks ++ t) ++ quote3) ++ r2).
               + rewrite A2, R2. simpl. rewrite <- !app_assoc. reflexivity.
               + rewrite E, <- app_assoc. reflexivity.
             - apply triple_app_conts; auto. }
           split; auto. split; [eauto|]. eapply adv_trans; eauto.
        -- right. split; auto. intros (t & r & B & E). simpl in B.
           inversion B; subst; simpl in E.
           ++ apply NQ. exists r. exact E.
           ++ inversion E; subst.
              apply N2. destruct (forall_cont_app_eq _ _ _ _ FK H4 (BQ r)) as (k2 & -> & E3).
              exists k2, r. rewrite E3. split; auto. simpl. eapply triple_drop_conts; eauto.
           ++ inversion E; subst. contradiction.
Qed.

Lemma triple_unique : forall t1 r1 t2 r2, TripleBody t1 -> TripleBody t2 ->
  t1 ++ quote3 ++ r1 = t2 ++ quote3 ++ r2 -> t1 = t2.
Proof.
  assert (LEN : forall (c : ascii) (t : bytes), 3 <= length ((c :: t) ++ quote3)).
  { intros. rewrite app_length. simpl. lia. }
  intros t1 r1 t2 r2 I1. revert t2. induction I1 as [|c t N1 N2 I IH|c t I IH]; intros t2 I2 E.
  - inversion I2 as [|c t N1 N2 I|c t I]; subst; auto.
    + exfalso. symmetry in E. rewrite app_assoc in E. simpl app in E at 2.
      destruct (q3_prefix _ _ _ (LEN c t) E) as (r' & E'). eapply N2; exact E'.
    + simpl in E; inversion E.
  - inversion I2 as [|c' t' N1' N2' I'|c' t' I']; subst.
    + exfalso. rewrite app_assoc in E.
      destruct (q3_prefix _ _ _ (LEN c t) E) as (r' & E'). eapply N2; exact E'.
    + simpl in E; inversion E; subst. f_equal. eapply IH; eauto.
    + simpl in E; inversion E; subst; contradiction.
  - inversion I2 as [|c' t' N1' N2' I'|c' t' I']; subst.
    + simpl in E; inversion E.
    + simpl in E; inversion E; subst; contradiction.
    + simpl in E; inversion E; subst. do 2 f_equal. eapply IH; eauto.
Qed.

(** ** Tokens *)

Definition kind_of (k : tkind) : kind :=
  match k with
  | TLParen => KLParen | TRParen => KRParen | TSymbol => KSymbol
  | TString => KString | TNumber => KNumber | TKeyword => KKeyword
  end.

Lemma symbol_not_delim : forall c, symbol_start c -> ~ delimiter c.
Proof. intros c (H & _); exact H. Qed.
Lemma number_not_delim : forall c, number_start c -> ~ delimiter c.
Proof.
  intros c H D. destruct H as [[H1 H2]|H].
  - destruct D as [[D|[D|[D|D]]]|[D|[D|D]]]; subst; vm_compute in H1, H2; lia.
  - destruct H as [-> | ->]; destruct D as [[D|[D|[D|D]]]|[D|[D|D]]]; discriminate.
Qed.

(** A token text starts with a character that cannot start a blank. *)
Lemma toktext_start : forall txt k v r, TokText txt k v r ->
  exists c t, txt = c :: t /\ token_start c.
Proof.
  assert (Q : token_start DQ) by (split; [intros [|[|[|]]]; discriminate|discriminate]).
  intros txt k v r H. inversion H; subst.
  - exists "("%char, []. split; auto. split; [intros [|[|[|]]]; discriminate|discriminate].
  - exists ")"%char, []. split; auto. split; [intros [|[|[|]]]; discriminate|discriminate].
  - exists c, t. split; auto. destruct H0 as (D & N & _ & S). split; auto. intros B; apply D; left; auto.
  - exists c, t. split; auto. pose proof (number_not_delim _ H0) as D. split.
    + intros B; apply D; left; auto.
    + intros ->. destruct H0 as [[H3 H4]|[|]]; try discriminate. vm_compute in H4. lia.
  - exists ":"%char, v. split; auto. split; [intros [|[|[|]]]; discriminate|discriminate].
  - exists DQ, (v ++ [DQ]). split; auto.
  - exists DQ, ([DQ; DQ] ++ v ++ quote3). split; auto.
Qed.

Ltac bad_start :=
  match goal with
  | H : symbol_start _ |- _ =>
      let a := fresh in let b := fresh in let c := fresh in let d := fresh in
      destruct H as (a & b & c & d); exfalso; (apply a || apply c || apply b)
  | H : number_start _ |- _ => exfalso; apply (number_not_delim _ H)
  end.

Lemma delim_lp : delimiter "("%char. Proof. right; left; reflexivity. Qed.
Lemma delim_rp : delimiter ")"%char. Proof. right; right; left; reflexivity. Qed.
Lemma delim_dq : delimiter DQ. Proof. right; right; right; reflexivity. Qed.
Lemma num_colon : ~ number_start ":"%char.
Proof. intros [[H1 H2]|[|]]; try discriminate. vm_compute in H2. lia. Qed.
Lemma sym_colon : ~ symbol_start ":"%char.
Proof. intros (_ & _ & H & _). contradiction. Qed.
Lemma sym_num : forall c, symbol_start c -> number_start c -> False.
Proof. intros c (_ & H & _) N. contradiction. Qed.
Lemma sym_delim : forall c, symbol_start c -> delimiter c -> False.
Proof. intros c (H & _) D. contradiction. Qed.
Lemma num_delim : forall c, number_start c -> delimiter c -> False.
Proof. intros c H D. eapply number_not_delim; eauto. Qed.

(** Tokens are unambiguous. *)
Lemma toktext_unique : forall txt1 k1 v1 r1 txt2 k2 v2 r2,
  TokText txt1 k1 v1 r1 -> TokText txt2 k2 v2 r2 -> txt1 ++ r1 = txt2 ++ r2 ->
  txt1 = txt2 /\ k1 = k2 /\ v1 = v2.
Proof.
  intros txt1 k1 v1 r1 txt2 k2 v2 r2 H1 H2 E.
  assert (SYM : forall c t r c' t' r', Ident (c :: t) -> stops r -> Ident (c' :: t') -> stops r' ->
     (c :: t) ++ r = (c' :: t') ++ r' -> c :: t = c' :: t').
  { intros. eapply ident_unique; eauto. }
  assert (HH : forall c c' (x y : bytes), c :: x = c' :: y -> c = c') by (intros; congruence).
  inversion H1; subst; inversion H2; subst; simpl in E;
    try (pose proof (HH _ _ _ _ E) as HE; try discriminate HE; subst;
         exfalso; first
         [ eapply sym_delim; eauto using delim_lp, delim_rp, delim_dq; fail
         | eapply num_delim; eauto using delim_lp, delim_rp, delim_dq; fail
         | eapply sym_num; eauto; fail
         | eapply num_colon; eauto; fail
         | eapply sym_colon; eauto; fail ]);
    auto.
  - match goal with |- ?x = ?y /\ _ => assert (x = y) as -> by (eapply SYM; [..|exact E]; eassumption) end. auto.
  - match goal with |- ?x = ?y /\ _ => assert (x = y) as -> by (eapply SYM; [..|exact E]; eassumption) end. auto.
  - inversion E as [E1].
    match goal with |- _ /\ _ /\ ?x = ?y => assert (x = y) as -> by (eapply ident_unique; [..|exact E1|eassumption|eassumption]; eassumption) end. auto.
  - inversion E as [E1]. rewrite <- !app_assoc in E1. simpl in E1.
    match goal with |- _ /\ _ /\ ?x = ?y => assert (x = y) as -> by (eapply strbody_unique; [..|exact E1]; eassumption) end. auto.
  - (* single vs triple *)
    exfalso. rewrite <- app_assoc in E. simpl in E. inversion E as [E1].
    inversion H; subst; simpl in E1.
    + inversion E1; subst. apply H0. split; auto. eexists; reflexivity.
    + inversion E1; subst. contradiction.
    + inversion E1.
  - exfalso. rewrite <- (app_assoc _ [DQ]) in E. simpl in E. inversion E as [E1].
    match goal with S : StrBody _ |- _ => inversion S; subst; simpl in E1 end.
    + inversion E1; subst.
      match goal with N : ~ (_ /\ _) |- _ => apply N end. split; auto. eexists; reflexivity.
    + inversion E1; subst. contradiction.
    + inversion E1.
  - inversion E as [E1]. rewrite <- !app_assoc in E1.
    match goal with |- _ /\ _ /\ ?x = ?y => assert (x = y) as -> by (eapply triple_unique; [..|exact E1]; eassumption) end. auto.
Qed.

Section Tok.
Variable id : nat.

(** Line number a token reports. *)
Definition tok_line (k : tkind) (s1 s2 : lex) : nat :=
  match k with TString => l_line s1 | _ => l_line s2 end.

(** [Tok s tok s2]: from [s] the next token is [tok], leaving [s2]. *)
Definition Tok (s : lex) (tok : token) (s2 : lex) : Prop :=
  exists bl w s1 txt k v,
    Blank bl w /\ adv 1 bl s s1 /\ adv 2 txt s1 s2 /\ TokText txt k v (l_rest s2) /\
    tok = Token (kind_of k) v w
            (Site id (tok_line k s1 s2) (l_off s1) (l_col s1) (length txt)).

Definition consume_body (w : bytes) (s1 : lex) : res (token * lex) :=
  match peek_char s1 with
  | None => Panic PUnwrap
  | Some c =>
      match character_kind c with
      | Some KLParen => consume_paren id "(" KLParen w s1
      | Some KRParen => consume_paren id ")" KRParen w s1
      | Some KNumber => consume_ident id KNumber w s1
      | Some KString => consume_string id w s1
      | Some KSymbol => consume_ident id KSymbol w s1
      | Some KKeyword => consume_keyword id w s1
      | None => Panic PUnreachable
      end
  end.

Lemma consume_eq : forall s w s1, consume_whitespace s = (w, s1) ->
  consume id s = consume_body w s1.
Proof. intros s w s1 E. unfold consume. rewrite E. reflexivity. Qed.

(** A text whose last identifier ends in a lone backslash. *)
Inductive HangText : bytes -> Prop :=
| hang_ident : forall t, Ident t -> HangText (t ++ [BS])
| hang_kw : forall t, Ident t -> HangText (":"%char :: t ++ [BS]).

Lemma hangtext_no_token : forall x, HangText x ->
  forall txt k v r, TokText txt k v r -> x <> txt ++ r.
Proof.
  intros x HX txt k v r T E.
  assert (PC : plain ":"%char).
  { split; [|discriminate]. intros [[|[|[|]]]|[|[|]]]; discriminate. }
  assert (exists t, x = t ++ [BS] /\ Ident t) as (t & -> & It).
  { inversion HX; subst; eauto. exists (":"%char :: t). split; auto. constructor; auto. }
  clear HX.
  inversion T; subst.
  - inversion It; subst; simpl in E; inversion E; subst. destruct H. apply H, delim_lp.
  - inversion It; subst; simpl in E; inversion E; subst. destruct H. apply H, delim_rp.
  - eapply (ident_no_trailing (c :: t0) r t); eauto.
  - eapply (ident_no_trailing (c :: t0) r t); eauto.
  - eapply (ident_no_trailing (":"%char :: v) r t); eauto. constructor; auto.
  - inversion It; subst; simpl in E; inversion E; subst. destruct H1. apply H1, delim_dq.
  - inversion It; subst; simpl in E; inversion E; subst. destruct H0. apply H0, delim_dq.
Qed.

Lemma incr_adv2 : forall t s r, l_rest s = t ++ r -> ~ In LF t ->
  adv 2 t s (incr (length t) s) /\ l_rest (incr (length t) s) = r.
Proof.
  intros t s r E N. pose proof (incr_adv 2 t s r E N) as A. split; auto.
  destruct A as (A & _). rewrite E in A. apply app_inv_head in A. auto.
Qed.

Lemma mk_site_adv : forall txt s1 s2, adv 2 txt s1 s2 ->
  mk_site id s2 (l_off s1) (l_col s1) = Site id (l_line s2) (l_off s1) (l_col s1) (length txt).
Proof. intros txt s1 s2 (_ & A & _). unfold mk_site. f_equal. lia. Qed.

Lemma cis_adv : forall s, utf8 (l_rest s) ->
  (exists t s', consume_identifier_string s = Ok (t, s') /\ Ident t /\ stops (l_rest s') /\
                utf8 (l_rest s') /\ adv 2 t s s') \/
  (consume_identifier_string s = Hang /\ exists t, l_rest s = t ++ [BS] /\ Ident t).
Proof.
  intros s U. unfold consume_identifier_string.
  destruct (cis_sound (S (length (l_rest s))) s U) as [(t & s' & E & I & S' & U' & A)|(E & t & Et & It)].
  - lia.
  - left. exists t, s'. rewrite E. cbn [bind]. rewrite (text_between_adv _ _ _ _ A). auto 6.
  - right. rewrite E. cbn [bind]. eauto.
Qed.

Definition NoToken (x : bytes) : Prop := forall txt k v r, TokText txt k v r -> x <> txt ++ r.

Lemma body_sound : forall w s1 c r, utf8 (l_rest s1) -> l_rest s1 = c :: r -> token_start c ->
  (exists txt k v s2, consume_body w s1 =
       Ok (Token (kind_of k) v w (Site id (tok_line k s1 s2) (l_off s1) (l_col s1) (length txt)), s2) /\
     TokText txt k v (l_rest s2) /\ adv 2 txt s1 s2 /\ utf8 (l_rest s2)) \/
  (consume_body w s1 = Hang /\ HangText (l_rest s1)) \/
  (exists ek n, consume_body w s1 = Err (EErr ek (Site id (l_line s1) (l_off s1) (l_col s1) n)) /\
     c = DQ /\ ((ek = EUnclosedTriple /\ n = 3 /\ exists r, l_rest s1 = quote3 ++ r) \/
       (ek = EUnclosedString /\ n = 1 /\ ~ exists r, l_rest s1 = quote3 ++ r)) /\
     n <= length (l_rest s1) /\
     NoToken (l_rest s1)).
Proof.
  intros w s1 c r U E [TS1 TS2]. unfold consume_body, peek_char. rewrite E.
  assert (PAREN : forall p, p = "("%char \/ p = ")"%char -> c = p -> forall k, 
    exists s2, consume_paren id p (kind_of k) w s1 =
      Ok (Token (kind_of k) [p] w (Site id (l_line s2) (l_off s1) (l_col s1) 1), s2) /\
     adv 2 [p] s1 s2 /\ utf8 (l_rest s2) /\ l_rest s2 = r).
  { intros p Hp -> k.
    destruct (consume_char_spec s1 p r U E) as (ks & r' & s' & -> & FK & AK & Ur & EC & A & ER).
    assert (ks = []) as ->. { apply AK. destruct Hp as [-> | ->]; vm_compute; lia. }
    assert (NL : ~ In LF [p]). { intros [H|[]]. destruct Hp as [-> | ->]; discriminate. }
    apply (adv_nolf 1 2) in A; auto.
    exists s'. unfold consume_paren. rewrite EC. cbn [bind]. rewrite ch_refl.
    rewrite (text_between_adv _ _ _ _ A), (mk_site_adv _ _ _ A). split; auto. split; auto. rewrite ER. auto. }
  assert (IDENT : forall k, (k = TSymbol /\ symbol_start c) \/ (k = TNumber /\ number_start c) ->
    (exists txt v s2, consume_ident id (kind_of k) w s1 =
       Ok (Token (kind_of k) v w (Site id (tok_line k s1 s2) (l_off s1) (l_col s1) (length txt)), s2) /\
     TokText txt k v (l_rest s2) /\ adv 2 txt s1 s2 /\ utf8 (l_rest s2)) \/
    (consume_ident id (kind_of k) w s1 = Hang /\ HangText (l_rest s1))).
  { intros k Hk. unfold consume_ident.
    destruct (cis_adv s1 U) as [(t & s' & E' & I & S' & U' & A)|(E' & t & Et & It)].
    - left. rewrite E'. cbn [bind]. rewrite (mk_site_adv _ _ _ A).
      assert (ND : ~ delimiter c).
      { destruct Hk as [[_ Hk]|[_ Hk]]; [apply symbol_not_delim|apply number_not_delim]; auto. }
      destruct t as [|c' t].
      { exfalso. destruct A as (A & _). simpl in A. rewrite <- A, E in S'. contradiction. }
      assert (c' = c). { destruct A as (A & _). rewrite E in A. inversion A; auto. } subst c'.
      exists (c :: t), (c :: t), s'. split.
      { destruct Hk as [[-> _]|[-> _]]; reflexivity. }
      split; auto. destruct Hk as [[-> Hk]|[-> Hk]]; constructor; auto.
    - right. rewrite E'. cbn [bind]. split; auto. rewrite Et. constructor; auto. }
  destruct (kindP c) as [W | Hc | Hc | HN HD | Hc | Hc | HD HN HC].
  - contradiction.
  - left. destruct (PAREN _ (or_introl eq_refl) Hc TLParen) as (s2 & E2 & A2 & U2 & R2).
    exists ["("%char], TLParen, ["("%char], s2. split; [exact E2|]. split; [constructor|]. auto.
  - left. destruct (PAREN _ (or_intror eq_refl) Hc TRParen) as (s2 & E2 & A2 & U2 & R2).
    exists [")"%char], TRParen, [")"%char], s2. split; [exact E2|]. split; [constructor|]. auto.
  - destruct (IDENT TNumber) as [(txt & v & s2 & H)|H]; auto.
    left. exists txt, TNumber, v, s2. exact H.
    right; left. rewrite <- E. exact H.
  - subst c. unfold consume_keyword.
    destruct (consume_char_spec s1 ":"%char r U E) as (ks & r' & s' & -> & FK & AK & Ur & EC & A & ER).
    assert (ks = []) as ->. { apply AK. vm_compute; lia. }
    rewrite EC. cbn [bind]. change (ch ":" ":") with true. cbv [negb]. cbv iota.
    assert (NL : ~ In LF [":"%char]) by (intros [H|[]]; discriminate).
    apply (adv_nolf 1 2) in A; auto.
    rewrite <- ER in Ur.
    destruct (cis_adv s' Ur) as [(t & s2 & E' & I & S' & U' & A')|(E' & t & Et & It)].
    + left. rewrite E'. cbn [bind].
      pose proof (adv_trans _ _ _ _ _ _ A A') as A2. simpl app in A2.
      destruct A as (A1' & Aoff & Acol & _). simpl in Aoff.
      assert (Ec : l_col s' = S (l_col s1)) by (rewrite Acol; reflexivity).
      replace (l_off s' =? 0) with false by (symmetry; apply Nat.eqb_neq; lia).
      rewrite Ec. simpl orb. cbv iota.
      exists (":"%char :: t), TKeyword, t, s2. split.
      { replace (l_off s' - 1) with (l_off s1) by lia. replace (S (l_col s1) - 1) with (l_col s1) by lia.
        rewrite (mk_site_adv _ _ _ A2). reflexivity. }
      split; [constructor; auto|]. auto.
    + right. left. rewrite E'. cbn [bind]. split; auto.
      rewrite <- E, (proj1 A), Et. simpl. apply hang_kw. auto.
  - subst c. unfold consume_string, peek_char. rewrite E. change (ch DQ DQ) with true. cbv [negb]. cbv iota.
    destruct (starts_with triple_quote (DQ :: r)) eqn:TQ.
    + apply starts_q3_iff in TQ as (r3 & E3). rewrite E3 in E.
      assert (N3 : ~ In LF quote3) by (intros [|[|[|[]]]]; discriminate).
      destruct (incr_adv2 quote3 s1 r3 E N3) as [A1 R1]. change (length quote3) with 3 in *.
      assert (U1 : utf8 (l_rest (incr 3 s1))).
      { rewrite R1. rewrite E in U. simpl in U.
        do 3 (apply utf8_ascii_tail in U; [|vm_compute; lia]). exact U. }
      destruct (triple_sound (S (length (l_rest (incr 3 s1)))) false _ U1 ltac:(lia))
        as [(t & s2 & E2 & B2 & U2 & (r2 & R2) & A2)|(E2 & N2)].
      * left. rewrite E2. cbn [bind].
        destruct (incr_adv2 quote3 s2 r2 R2 N3) as [A3 R3]. change (length quote3) with 3 in *.
        assert (A : adv 2 (quote3 ++ t ++ quote3) s1 (incr 3 s2)).
        { eapply adv_trans; [exact A1|]. eapply adv_trans; eauto. }
        exists (quote3 ++ t ++ quote3), TString, t, (incr 3 s2). split.
        { rewrite (text_between_adv _ _ _ _ A2), (mk_site_adv _ _ _ A). reflexivity. }
        split; [constructor; exact B2|]. split; auto.
        rewrite R3. rewrite R2 in U2. simpl in U2.
        do 3 (apply utf8_ascii_tail in U2; [|vm_compute; lia]). exact U2.
      * right; right. rewrite E2. cbn [bind]. exists EUnclosedTriple, 3. split; auto. split; auto.
        split. { left. split; auto. split; auto. first [rewrite E, E3|rewrite E3|idtac]; eauto. }
        split. { rewrite E3. simpl. lia. }
        rewrite E3. rewrite R1 in N2. clear R1.
        intros txt k v r' T Eq. inversion T; subst; simpl in Eq; inversion Eq; subst.
        -- exfalso. eapply sym_delim; eauto using delim_dq.
        -- exfalso. eapply num_delim; eauto using delim_dq.
        -- rewrite <- app_assoc in H2. simpl in H2.
           inversion H; subst; simpl in H2.
           ++ inversion H2; subst. apply H0. split; auto. eexists; reflexivity.
           ++ inversion H2; subst. contradiction.
           ++ inversion H2.
        -- apply N2. exists v, r'. split; [exact H|]. rewrite <- app_assoc. reflexivity.
    + assert (NQ : ~ exists r3, DQ :: r = quote3 ++ r3).
      { intros H. apply starts_q3_iff in H. congruence. }
      assert (N1 : ~ In LF [DQ]) by (intros [|[]]; discriminate).
      destruct (incr_adv2 [DQ] s1 r E N1) as [A1 R1]. change (length [DQ]) with 1 in *.
      assert (U1 : utf8 (l_rest (incr 1 s1))).
      { rewrite R1. rewrite E in U. apply utf8_ascii_tail in U; [exact U|vm_compute; lia]. }
      destruct (string_sound (S (length (l_rest (incr 1 s1)))) false _ U1 ltac:(lia))
        as [(t & s2 & E2 & B2 & U2 & (r2 & R2) & A2)|(E2 & N2)].
      * left. rewrite E2. cbn [bind].
        destruct (incr_adv2 [DQ] s2 r2 R2 N1) as [A3 R3]. change (length [DQ]) with 1 in *.
        assert (A : adv 2 ([DQ] ++ t ++ [DQ]) s1 (incr 1 s2)).
        { eapply adv_trans; [exact A1|]. eapply adv_trans; eauto. }
        exists ([DQ] ++ t ++ [DQ]), TString, t, (incr 1 s2). split.
        { rewrite (text_between_adv _ _ _ _ A2), (mk_site_adv _ _ _ A). reflexivity. }
        split; [constructor; [exact B2|]|].
        { intros (-> & r4 & E4). apply NQ. exists r4.
          rewrite <- R1, (proj1 A2), R2, <- R3, E4. reflexivity. }
        split; auto. rewrite R3. rewrite R2 in U2.
        apply utf8_ascii_tail in U2; [exact U2|vm_compute; lia].
      * right; right. rewrite E2. cbn [bind]. exists EUnclosedString, 1. split; auto. split; auto. split; [right; auto|].
        split. { simpl. lia. }
        rewrite R1 in N2. clear R1.
        intros txt k v r' T Eq. inversion T; subst; simpl in Eq; inversion Eq; subst.
        -- exfalso. eapply sym_delim; eauto using delim_dq.
        -- exfalso. eapply num_delim; eauto using delim_dq.
        -- apply N2. exists v, r'. split; [exact H|].
           rewrite <- app_assoc. reflexivity.
        -- apply NQ. eexists; reflexivity.
  - assert (SS : symbol_start c) by (split; auto).
    destruct (IDENT TSymbol) as [(txt & v & s2 & H)|H]; auto.
    left. exists txt, TSymbol, v, s2. exact H.
    right; left. rewrite <- E. exact H.
Qed.

(** Everything [consume] can do on UTF-8 text. *)
Inductive consume_outcome (s : lex) : res (token * lex) -> Prop :=
| co_tok : forall tok s2, Tok s tok s2 -> utf8 (l_rest s2) ->
    length (l_rest s2) < length (l_rest s) -> consume_outcome s (Ok (tok, s2))
| co_eof : Trailing (l_rest s) -> consume_outcome s (Panic PUnwrap)
| co_hang : forall bl w x, Blank bl w -> l_rest s = bl ++ x -> CutIdent x ->
    consume_outcome s Hang
| co_err : forall bl w s1 ek n, Blank bl w -> adv 1 bl s s1 ->
    (exists r, l_rest s1 = DQ :: r) -> NoToken (l_rest s1) ->
    ((ek = EUnclosedTriple /\ n = 3 /\ exists r, l_rest s1 = quote3 ++ r) \/
     (ek = EUnclosedString /\ n = 1 /\ ~ exists r, l_rest s1 = quote3 ++ r)) ->
    n <= length (l_rest s1) ->
    consume_outcome s (Err (EErr ek (Site id (l_line s1) (l_off s1) (l_col s1) n))).

Lemma hangtext_cut : forall x, HangText x -> (forall r, x <> ";"%char :: r) -> CutIdent x.
Proof.
  assert (PC : plain ":"%char).
  { split; [|discriminate]. intros [[|[|[|]]]|[|[|]]]; discriminate. }
  intros x [t I|t I] N.
  - constructor; auto. intros r E. apply (N (r ++ [BS])). rewrite E. reflexivity.
  - change (":"%char :: t ++ [BS]) with ((":"%char :: t) ++ [BS]).
    constructor; [constructor; auto|]. intros r E. discriminate.
Qed.

(** A UTF-8 text with a blank prefix has a UTF-8 rest. *)
Lemma utf8_blank_rest : forall bl w r, Blank bl w -> utf8 (bl ++ r) -> utf8 r.
Proof.
  assert (WS : forall w r, Forall blank_char w -> utf8 (w ++ r) -> utf8 r).
  { induction w as [|c w IH]; intros r F U; auto. inversion F; subst. simpl in U.
    apply IH; auto. eapply utf8_ascii_tail; [|exact U]. apply delimiter_ascii. left; auto. }
  intros bl w r H. induction H as [w F|t w' body w Ht IH N F]; intros U.
  - eapply WS; eauto.
  - replace ((t ++ ";"%char :: body ++ LF :: w) ++ r)
      with ((t ++ ";"%char :: body) ++ (LF :: w ++ r)) in U.
    2: { rewrite <- !app_assoc. simpl. rewrite <- app_assoc. reflexivity. }
    apply utf8_split in U as [_ U]; [|reflexivity].
    apply utf8_ascii_tail in U; [|vm_compute; lia]. eapply WS; eauto.
Qed.

Lemma consume_spec : forall s, utf8 (l_rest s) -> consume_outcome s (consume id s).
Proof.
  intros s U. destruct (consume_whitespace s) as [w s1] eqn:EW.
  destruct (cw_sound s w s1 EW) as [C1 C2].
  rewrite (consume_eq _ _ _ EW).
  destruct (l_rest s1) as [|c r] eqn:Er.
  { unfold consume_body, peek_char. rewrite Er. apply co_eof. auto. }
  destruct (C1 c r eq_refl) as (TS & bl & B & A).
  assert (U1 : utf8 (l_rest s1)).
  { eapply utf8_blank_rest; [exact B|]. rewrite <- (proj1 A). exact U. }
  destruct (body_sound w s1 c r U1 Er TS) as
    [(txt & k & v & s2 & E & T & A2 & U2)|[(E & HT)|(ek & n & E & -> & K & LE & NT)]].
  - rewrite E. apply co_tok; auto.
    + exists bl, w, s1, txt, k, v. auto.
    + rewrite (adv_length _ _ _ _ A), (adv_length _ _ _ _ A2).
      destruct (toktext_start _ _ _ _ T) as (c' & t' & -> & _). simpl. lia.
  - rewrite E. eapply co_hang; eauto. apply (proj1 A).
    apply hangtext_cut; auto. intros r' E'. rewrite Er in E'. inversion E'; subst.
    destruct TS as [_ TS]. apply TS. reflexivity.
  - rewrite E. eapply co_err; eauto.
Qed.

Lemma tok_complete : forall s tok s2, utf8 (l_rest s) -> Tok s tok s2 ->
  consume id s = Ok (tok, s2).
Proof.
  intros s tok s2 U (bl & w & s1 & txt & k & v & B & A1 & A2 & T & ->).
  destruct (toktext_start _ _ _ _ T) as (c & t & Et & TS).
  assert (R1 : l_rest s1 = c :: t ++ l_rest s2) by (rewrite (proj1 A2), Et; reflexivity).
  assert (R0 : l_rest s = bl ++ c :: t ++ l_rest s2) by (rewrite (proj1 A1), R1; reflexivity).
  destruct (cw_complete bl w s c _ B R0 TS) as [EW RM].
  assert (s1 = move 1 bl s) as ->.
  { eapply adv_fun; [exact A1|]. eapply move_adv. exact R0. }
  rewrite (consume_eq _ _ _ EW).
  assert (U1 : utf8 (l_rest (move 1 bl s))).
  { eapply utf8_blank_rest; [exact B|]. rewrite <- (proj1 A1). exact U. }
  destruct (body_sound w _ c _ U1 R1 TS) as
    [(txt' & k' & v' & s2' & E & T' & A2' & U2)|[(E & HT)|(ek & n & E & Ec & K & LE & NT)]].
  - rewrite E.
    destruct (toktext_unique _ _ _ _ _ _ _ _ T T') as (-> & -> & ->).
    { rewrite <- (proj1 A2), <- (proj1 A2'). reflexivity. }
    assert (s2 = s2') as -> by (eapply adv_fun; eauto). reflexivity.
  - exfalso. eapply hangtext_no_token; eauto. apply (proj1 A2).
  - exfalso. eapply NT; eauto. apply (proj1 A2).
Qed.

Lemma cut_start : forall x, CutIdent x -> HangText x /\ exists c r, x = c :: r /\ token_start c /\ c <> DQ.
Proof.
  intros x [t I N]. split; [constructor; auto|].
  destruct t as [|c t].
  - exists BS, []. split; [reflexivity|]. split; [split|]; try discriminate.
    intros [|[|[|]]]; discriminate.
  - exists c, (t ++ [BS]). split; [reflexivity|].
    assert (c <> ";"%char) by (intros ->; eapply N; reflexivity).
    inversion I; subst.
    + destruct H2 as [H2 _]. split; [split; auto|].
      * intros B. apply H2. left; auto.
      * intros ->. apply H2, delim_dq.
    + split; [split|]; try discriminate. intros [|[|[|]]]; discriminate.
Qed.

Lemma cut_hangs : forall s bl w x, utf8 (l_rest s) -> Blank bl w -> l_rest s = bl ++ x -> CutIdent x ->
  consume id s = Hang.
Proof.
  intros s bl w x U B E C. destruct (cut_start x C) as (HT & c & r & -> & TS & ND).
  destruct (cw_complete bl w s c _ B E TS) as [EW RM].
  rewrite (consume_eq _ _ _ EW).
  assert (U1 : utf8 (l_rest (move 1 bl s))).
  { eapply utf8_blank_rest; [exact B|]. rewrite RM, <- E. exact U. }
  destruct (body_sound w _ c _ U1 RM TS) as
    [(txt' & k' & v' & s2' & EB & T' & A2' & U2)|[(EB & _)|(ek & n & EB & Ec & K & LE & NT)]].
  - exfalso. eapply hangtext_no_token; eauto. rewrite <- (proj1 A2'). symmetry; exact RM.
  - exact EB.
  - contradiction.
Qed.

Lemma cut_not_trailing : forall bl w x, utf8 (bl ++ x) -> Blank bl w -> CutIdent x -> ~ Trailing (bl ++ x).
Proof.
  intros bl w x U B C T.
  pose proof (cut_hangs (lex_new (bl ++ x)) bl w x U B eq_refl C) as E.
  destruct (consume_whitespace (lex_new (bl ++ x))) as [w' s1] eqn:EW.
  rewrite (consume_eq _ _ _ EW) in E. unfold consume_body, peek_char in E.
  pose proof (cw_trailing (lex_new (bl ++ x)) T) as R. rewrite EW in R. simpl in R. rewrite R in E. discriminate.
Qed.

Lemma tok_unique : forall s tok s2 tok' s2', utf8 (l_rest s) ->
  Tok s tok s2 -> Tok s tok' s2' -> tok = tok' /\ s2 = s2'.
Proof.
  intros s tok s2 tok' s2' U H H'.
  pose proof (tok_complete _ _ _ U H) as E. pose proof (tok_complete _ _ _ U H') as E'.
  rewrite E in E'. inversion E'; auto.
Qed.

Lemma tok_utf8 : forall s tok s2, utf8 (l_rest s) -> Tok s tok s2 ->
  utf8 (l_rest s2) /\ length (l_rest s2) < length (l_rest s).
Proof.
  intros s tok s2 U H. pose proof (tok_complete _ _ _ U H) as E.
  pose proof (consume_spec s U) as C. rewrite E in C. inversion C; subst. auto.
Qed.

Lemma peek_eq : forall s, peek id s = match consume id s with
  | Ok (t, _) => Ok (t, s) | Err e => Err e | Panic p => Panic p | Hang => Hang | OutOfFuel => OutOfFuel end.
Proof.
  intros [l o c r]. unfold peek, restore. destruct (consume id (Lex l o c r)) as [[t s']| | | |]; reflexivity.
Qed.

Lemma eof_eq : forall s, eof s = Ok (match drop_blank false (l_rest s) with [] => true | _ => false end, s).
Proof.
  intros [l o c r]. unfold eof, restore.
  destruct (consume_whitespace (Lex l o c r)) as [w s'] eqn:E. cbn [bind].
  assert (R : l_rest s' = drop_blank false r).
  { unfold consume_whitespace in E. simpl in E.
    rewrite <- (cw_loop_rest r l o c false []). rewrite E. reflexivity. }
  unfold peek_char. rewrite R. simpl. destruct (drop_blank false r); reflexivity.
Qed.

Lemma drop_blank_nil : forall t, drop_blank false t = [] <-> Trailing t.
Proof.
  intros t. split; [|apply drop_blank_trailing].
  intros H. destruct (consume_whitespace (lex_new t)) as [w s1] eqn:E.
  destruct (cw_sound _ _ _ E) as [_ C]. apply C.
  unfold consume_whitespace in E. simpl in E.
  rewrite <- H, <- (cw_loop_rest t 1 0 0 false []), E. reflexivity.
Qed.

Lemma eof_spec : forall s, exists x, eof s = Ok (x, s) /\ (x = true <-> Trailing (l_rest s)).
Proof.
  intros s. rewrite eof_eq. eexists. split; [reflexivity|].
  rewrite <- drop_blank_nil. destruct (drop_blank false (l_rest s)); split; congruence.
Qed.

Lemma tok_not_trailing : forall s tok s2, utf8 (l_rest s) -> Tok s tok s2 -> ~ Trailing (l_rest s).
Proof.
  intros s tok s2 U H T. pose proof (tok_complete _ _ _ U H) as E.
  destruct (consume_whitespace s) as [w s1] eqn:EW.
  rewrite (consume_eq _ _ _ EW) in E. unfold consume_body, peek_char in E.
  pose proof (cw_trailing s T) as R. rewrite EW in R. simpl in R. rewrite R in E. discriminate.
Qed.
End Tok.
