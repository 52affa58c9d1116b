(** * Syntax errors are reported where they are *)

From Coq Require Import List Ascii Bool Arith Lia.
From Verif Require Import Text Utf8 Res Lexer Ast Parser Spec_grammar Spec_tree Spec_syntax
  Proofs_text Proofs_lexer Proofs_token Proofs_ast Proofs_parser.
Import ListNotations.

Section P.
Variable unescape : bytes -> option bytes.
Variable id : nat.

Notation Tok := (Tok id).
Notation consume := (consume id).
Notation peek := (peek id).
Notation parse_atomic := (Parser.parse_atomic unescape id).
Notation parse_expr := (Parser.parse_expr unescape id).
Notation parse_items := (Parser.parse_items unescape id).
Notation parse_loop := (parse_loop unescape id).
Notation GExpr := (GExpr unescape id).
Notation GItems := (GItems unescape id).

Definition total (s : lex) : nat := l_off s + length (l_rest s).

Lemma adv_total : forall k t s s', adv k t s s' -> total s' = total s.
Proof. intros k t s s' (A & O & _). unfold total. rewrite A, O, app_length. lia. Qed.

Lemma tok_total : forall s tok s2, Tok s tok s2 -> total s2 = total s.
Proof.
  intros s tok s2 (bl & w & s1 & txt & k & v & B & A1 & A2 & T & ->).
  rewrite (adv_total _ _ _ _ A2). eapply adv_total; eauto.
Qed.

Lemma g_total :
  (forall s n s', GExpr s n s' -> total s' = total s) /\
  (forall s es rp s', GItems s es rp s' -> total s' = total s).
Proof.
  apply G_mutind; intros; try (eapply tok_total; eassumption).
  - rewrite H. eapply tok_total; eauto.
  - rewrite H. eapply tok_total; eauto.
  - rewrite H0. exact H.
Qed.

(** What a token says about the text and the place it marks. *)
Lemma tok_place : forall s tok s2, Tok s tok s2 ->
  exists bl txt k, l_rest s = bl ++ txt ++ l_rest s2 /\ Blank bl (t_ws tok) /\
    TokText txt k (t_value tok) (l_rest s2) /\ t_kind tok = kind_of k /\
    s_span (t_site tok) = length txt /\ s_off (t_site tok) + length (txt ++ l_rest s2) = total s.
Proof.
  intros s tok s2 (bl & w & s1 & txt & k & v & B & A1 & A2 & T & ->). cbn.
  exists bl, txt, k. pose proof (adv_total _ _ _ _ A1) as E1. unfold total in E1 at 1.
  rewrite <- (proj1 A2). rewrite <- (proj1 A1). repeat (split; auto).
Qed.

(** Two tokens at the same place are the same, and no token follows a blank
    end. *)
Lemma tok_closes : forall s tok s2, utf8 (l_rest s) -> Tok s tok s2 ->
  (t_kind tok = KRParen <-> closes (l_rest s)).
Proof.
  intros s tok s2 U T. split.
  - intros K. destruct (tok_place _ _ _ T) as (bl & txt & k & E & B & TT & K' & _).
    rewrite K in K'. destruct k; try discriminate. inversion TT; subst.
    exists bl, (t_ws tok), (l_rest s2). auto.
  - intros (bl & w & r & B & E).
    destruct (tok_make id s bl w [")"%char] TRParen [")"%char] r E B (tt_rparen r)) as (tok' & s' & T' & _ & K & _).
    destruct (tok_unique _ _ _ _ _ _ U T T') as [-> _]. exact K.
Qed.

(** ** Errors that happen are defects *)

Definition at_fault (B : ekind -> bytes -> nat -> Prop) (s : lex) (k : ekind) (st : site) : Prop :=
  exists here, B k here (s_span st) /\ s_off st + length here = total s.

Definition faults {A} (B : ekind -> bytes -> nat -> Prop) (s : lex) (r : res A) : Prop :=
  match r with Err (EErr k st) => at_fault B s k st | _ => True end.

Lemma faults_bind : forall A A' B s (r : res A) (f : A -> res A'),
  faults B s r -> (forall a, r = Ok a -> faults B s (f a)) -> faults B s (bind r f).
Proof. intros A A' B s [a|[k st]|p| |] f H H'; cbn in *; auto. Qed.

Lemma faults_impl : forall A (B B' : ekind -> bytes -> nat -> Prop) s s' (r : res A),
  total s = total s' -> (forall k h n, B k h n -> B' k h n) -> faults B s r -> faults B' s' r.
Proof.
  intros A B B' s s' [a|[k st]|p| |] E I F; cbn in *; auto.
  destruct F as (h & H & O). exists h. split; auto. congruence.
Qed.

Lemma consume_faults : forall s, utf8 (l_rest s) -> faults (BadExpr unescape (l_rest s)) s (consume s).
Proof.
  intros s U. destruct (consume_spec id s U) as [tok s2|T|bl w x|bl w s1 ek n B A (r & E) NT C L]; cbn; auto.
  exists (l_rest s1). split; [|exact (adv_total _ _ _ _ A)]. cbn [s_span].
  rewrite (proj1 A).
  destruct C as [(-> & -> & r' & E')|(-> & -> & N)].
  - rewrite E' in *. eapply b_triple; eauto. intros t rest TB ER.
    eapply (NT (quote3 ++ t ++ quote3) TString t rest); [constructor; auto|].
    rewrite ER, <- !app_assoc. reflexivity.
  - rewrite E in *. eapply b_string; eauto.
    intros t rest SB ER. eapply (NT (DQ :: t ++ [DQ]) TString t rest); [apply tt_str; auto|].
    + intros (-> & r2 & ->). apply N. exists r2. rewrite ER. reflexivity.
    + rewrite ER. simpl. rewrite <- app_assoc. reflexivity.
Qed.

Lemma peek_faults : forall s, utf8 (l_rest s) -> faults (BadExpr unescape (l_rest s)) s (peek s).
Proof.
  intros s U. rewrite peek_eq. pose proof (consume_faults s U) as F. destruct (consume s) as [[tok s2]| | | |]; auto.
Qed.

Lemma peek_ok : forall s tok s', utf8 (l_rest s) -> peek s = Ok (tok, s') -> s' = s /\ exists s2, Tok s tok s2.
Proof.
  intros s tok s' U E. rewrite peek_eq in E. pose proof (consume_spec id s U) as C.
  destruct (consume s) as [[tok' s2]| | | |]; try discriminate. injection E as -> ->.
  split; auto. inversion C; subst. eauto.
Qed.

Lemma atomic_faults : forall s tok s2, utf8 (l_rest s) -> Tok s tok s2 ->
  faults (BadExpr unescape (l_rest s)) s (parse_atomic s).
Proof.
  intros s tok s2 U T. unfold Parser.parse_atomic. rewrite (tok_complete _ _ _ _ U T). cbn [bind].
  destruct (t_kind tok) eqn:K; cbn; auto.
  destruct (unescape (t_value tok)) eqn:EV; cbn; auto.
  destruct (tok_place _ _ _ T) as (bl & txt & k & E & B & TT & K' & SP & O).
  rewrite K in K'. destruct k; try discriminate.
  exists (txt ++ l_rest s2). split; [|exact O]. rewrite SP, E. eapply b_escape; eauto.
Qed.

Lemma items_open : forall fuel s es s', utf8 (l_rest s) -> 2 * length (l_rest s) < fuel ->
  parse_items fuel s = Ok (es, None, s') -> Program unescape (l_rest s) (map strip es).
Proof.
  induction fuel as [|f IH]; intros s es s' U L H; [lia|]. rewrite parse_items_S in H.
  destruct (eof_spec s) as (x & Ex & Ix). rewrite Ex in H. cbn [bind] in H. destruct x.
  - injection H as <- <-. constructor. apply Ix. reflexivity.
  - assert (NT : ~ Trailing (l_rest s)). { intros Q. apply Ix in Q. discriminate. }
    destruct (peek s) as [[tok s0]| | | |] eqn:P; try discriminate. cbn [bind] in H.
    destruct (peek_ok _ _ _ U P) as (-> & s2 & T).
    assert (R : (let* '(e, s0) := parse_expr f s in let* '(es, rp, s1) := parse_items f s0 in Ok (e :: es, rp, s1))
                = Ok (es, None, s') -> Program unescape (l_rest s) (map strip es)).
    { intros R. pose proof (proj1 (parse_good unescape id f) s U NT ltac:(lia)) as G.
      destruct (parse_expr f s) as [[e s1]| | | |]; try discriminate. cbn [bind] in R. cbn in G. destruct G as (G & U1 & L1).
      destruct (parse_items f s1) as [[[es' rp] s3]| | | |] eqn:Q; try discriminate. cbn [bind] in R.
      injection R as <- -> ->. cbn [map]. econstructor; [exact (proj1 (g_grammar unescape id) _ _ _ G)|].
      eapply IH; [exact U1| |exact Q]. lia. }
    destruct (t_kind tok); try (apply R; exact H).
    rewrite (tok_complete _ _ _ _ U T) in H. discriminate.
Qed.

Lemma parse_faults : forall fuel,
  (forall s, utf8 (l_rest s) -> ~ Trailing (l_rest s) -> 2 * length (l_rest s) <= fuel ->
     faults (BadExpr unescape (l_rest s)) s (parse_expr fuel s)) /\
  (forall s, utf8 (l_rest s) -> 2 * length (l_rest s) < fuel ->
     faults (BadItems unescape (l_rest s)) s (parse_items fuel s)).
Proof.
  induction fuel as [|f [IHe IHi]]; split; try (intros; exact I).
  - intros s U NT L. rewrite parse_expr_S. apply faults_bind; [apply peek_faults; auto|].
    intros [tok s0] P. destruct (peek_ok _ _ _ U P) as (-> & s2 & T).
    destruct (tok_utf8 _ _ _ _ U T) as [U2 LT]. pose proof (tok_total _ _ _ T) as TO.
    destruct (tok_place _ _ _ T) as (bl & txt & k & E & B & TT & K' & SP & O).
    destruct (t_kind tok) eqn:K.
    + rewrite (tok_complete _ _ _ _ U T). cbn [bind]. rewrite K.
      destruct k; try discriminate. inversion TT; subst txt. cbn [app] in *.
      apply faults_bind.
      * eapply faults_impl; [exact TO| |apply (IHi s2 U2); lia].
        intros k' h n Q. rewrite E. eapply b_list; eauto.
      * intros [[es rp] s3] Q. destruct rp as [rp|]; cbn; auto.
        exists ("("%char :: l_rest s2). split; [|exact O]. rewrite SP, E. eapply b_open; eauto.
        eapply (items_open f); [exact U2| |exact Q]. lia.
    + destruct k; try discriminate. inversion TT; subst txt. cbn [app] in *. cbn.
      exists (")"%char :: l_rest s2). split; [|exact O]. rewrite SP, E. eapply b_close; eauto.
    + apply faults_bind; [eapply atomic_faults; eauto|]. intros [a s']; cbn; auto.
    + apply faults_bind; [eapply atomic_faults; eauto|]. intros [a s']; cbn; auto.
    + apply faults_bind; [eapply atomic_faults; eauto|]. intros [a s']; cbn; auto.
    + rewrite (tok_complete _ _ _ _ U T). cbn [bind]. rewrite K.
      destruct k; try discriminate. inversion TT as [| | | |t rest ID ST| |]; subst. cbn [app] in *.
      destruct (eof_spec s2) as (x & Ex & Ix). rewrite Ex. cbn [bind]. destruct x.
      { cbn. exists (":"%char :: t_value tok ++ l_rest s2). split; [|exact O]. rewrite SP, E.
        eapply b_no_value; eauto. left. apply Ix. reflexivity. }
      assert (NT2 : ~ Trailing (l_rest s2)). { intros H. apply Ix in H. discriminate. }
      destruct (peek s2) as [[nxt s0]|[ek st]| | |] eqn:P2; cbn [bind]; cbn; auto.
      * destruct (peek_ok _ _ _ U2 P2) as (-> & s3 & T3).
        assert (C3 := tok_closes _ _ _ U2 T3).
        destruct (t_kind nxt) eqn:KN;
          try (apply faults_bind; [|intros [v s4]; cbn; auto];
               eapply faults_impl; [exact TO| |apply (IHe s2 U2 NT2); lia];
               intros k' h n Q; rewrite E; eapply b_value; eauto; intros CL; apply C3 in CL; discriminate).
        cbn. exists (":"%char :: t_value tok ++ l_rest s2). split; [|exact O]. rewrite SP, E.
        eapply b_no_value; eauto. right. apply C3. reflexivity.
      * pose proof (peek_faults s2 U2) as F. rewrite P2 in F. cbn in F. destruct F as (h & F & FO).
        exists h. split; [|congruence]. rewrite E. eapply b_value; eauto.
        intros (bl' & w' & r' & B' & E').
        destruct (tok_make id s2 bl' w' [")"%char] TRParen [")"%char] r' E' B' (tt_rparen r')) as (tok' & s' & T' & _).
        rewrite (peek_tok id _ _ _ U2 T') in P2. discriminate.
  - intros s U L. rewrite parse_items_S.
    destruct (eof_spec s) as (x & Ex & Ix). rewrite Ex. cbn [bind]. destruct x; [exact I|].
    assert (NT : ~ Trailing (l_rest s)). { intros H. apply Ix in H. discriminate. }
    destruct (peek s) as [[tok s0]|[ek st]| | |] eqn:P; cbn [bind]; cbn; auto.
    + destruct (peek_ok _ _ _ U P) as (-> & s2 & T). assert (C := tok_closes _ _ _ U T).
      assert (R : t_kind tok <> KRParen -> faults (BadItems unescape (l_rest s)) s
       (let* '(e, s0) := parse_expr f s in let* '(es, rp, s1) := parse_items f s0 in Ok (e :: es, rp, s1))).
      { intros NK. apply faults_bind.
        - eapply faults_impl; [reflexivity| |apply (IHe s U NT); lia].
          intros k h n Q. apply bi_here; auto. rewrite <- C. exact NK.
        - intros [e s1] Q. pose proof (proj1 (parse_good unescape id f) s U NT ltac:(lia)) as G. rewrite Q in G.
          cbn in G. destruct G as (G & U1 & L1).
          apply faults_bind; [|intros [[es rp] s3] _; exact I].
          eapply faults_impl; [exact (proj1 g_total _ _ _ G)| |apply (IHi s1 U1); lia].
          intros k h n Q'. eapply bi_skip; eauto. apply (proj1 (g_grammar unescape id) _ _ _ G). }
      destruct (t_kind tok); try (apply R; discriminate).
      rewrite (tok_complete _ _ _ _ U T). exact I.
    + pose proof (peek_faults s U) as F. rewrite P in F. cbn in F. destruct F as (h & F & FO).
      exists h. split; [|exact FO]. apply bi_here; auto.
      intros (bl' & w' & r' & B' & E').
      destruct (tok_make id s bl' w' [")"%char] TRParen [")"%char] r' E' B' (tt_rparen r')) as (tok' & s' & T' & _).
      rewrite (peek_tok id _ _ _ U T') in P. discriminate.
Qed.

Lemma loop_faults : forall fuel s, utf8 (l_rest s) -> 2 * length (l_rest s) < fuel ->
  faults (BadProgram unescape (l_rest s)) s (parse_loop fuel s).
Proof.
  induction fuel as [|f IH]; intros s U L; [lia|]. cbn [Parser.parse_loop].
  destruct (eof_spec s) as (x & Ex & Ix). rewrite Ex. cbn [bind]. destruct x; [exact I|].
  assert (NT : ~ Trailing (l_rest s)). { intros H. apply Ix in H. discriminate. }
  apply faults_bind.
  - eapply faults_impl; [reflexivity| |apply (proj1 (parse_faults f) s U NT); lia].
    intros k h n Q. apply bp_here. exact Q.
  - intros [e s1] Q. pose proof (proj1 (parse_good unescape id f) s U NT ltac:(lia)) as G. rewrite Q in G.
    cbn in G. destruct G as (G & U1 & L1).
    apply faults_bind; [|intros es _; exact I].
    eapply faults_impl; [exact (proj1 g_total _ _ _ G)| |apply (IH s1 U1); lia].
    intros k h n Q'. eapply bp_skip; eauto. apply (proj1 (g_grammar unescape id) _ _ _ G).
Qed.

(** ** Defects are reported *)

Definition reports {A} (s : lex) (k : ekind) (here : bytes) (n : nat) (r : res A) : Prop :=
  exists st, r = Err (EErr k st) /\ s_span st = n /\ s_off st + length here = total s.

Lemma reports_bind : forall A A' s k here n (r : res A) (f : A -> res A'),
  reports s k here n r -> reports s k here n (bind r f).
Proof. intros A A' s k here n r f (st & -> & H). exists st. auto. Qed.

Lemma reports_from : forall A s s' k here n (r : res A), total s = total s' ->
  reports s k here n r -> reports s' k here n r.
Proof. intros A s s' k here n r E (st & -> & S & O). exists st. split; auto. split; auto. congruence. Qed.

Scheme BExpr_mind := Induction for BadExpr Sort Prop
  with BItems_mind := Induction for BadItems Sort Prop.
Combined Scheme B_mutind from BExpr_mind, BItems_mind.

(** A string that is not closed. *)
Lemma consume_open : forall s bl w r, utf8 (l_rest s) -> Blank bl w -> l_rest s = bl ++ DQ :: r ->
  NoToken (DQ :: r) ->
  ((forall r', DQ :: r <> quote3 ++ r') -> reports s EUnclosedString (DQ :: r) 1 (consume s)) /\
  ((exists r', DQ :: r = quote3 ++ r') -> reports s EUnclosedTriple (DQ :: r) 3 (consume s)).
Proof.
  intros s bl w r U B E NT.
  assert (TS : token_start DQ). { split; [intros [|[|[|]]]; discriminate|discriminate]. }
  destruct (cw_complete bl w s DQ r B E TS) as [EW RM].
  pose proof (move_adv 1 bl s _ E) as A.
  assert (U1 : utf8 (l_rest (move 1 bl s))). { eapply utf8_blank_rest; [exact B|]. rewrite <- (proj1 A). exact U. }
  rewrite (consume_eq id _ _ _ EW).
  pose proof (adv_total _ _ _ _ A) as TO. unfold total in TO at 1. rewrite RM in TO.
  destruct (body_sound id w _ DQ r U1 RM TS) as
    [(txt & k & v & s2 & EB & T & A2 & U2)|[(EB & HT)|(ek & n & EB & _ & C & _ & _)]].
  - exfalso. apply (NT _ _ _ _ T). rewrite <- (proj1 A2). auto.
  - exfalso. rewrite RM in HT. assert (HD : forall t, Ident t -> t ++ [BS] <> DQ :: r).
    { intros t I EQ. inversion I; subst; simpl in EQ; injection EQ as Q1 Q2; try discriminate.
      subst. destruct H as [H _]. apply H, delim_dq. }
    inversion HT as [t I EQ|t I EQ]. eapply HD; eauto.
  - rewrite EB, RM in *. split; intros Q.
    + destruct C as [(_ & _ & r' & C)|(-> & -> & _)]; [destruct (Q _ C)|]. eexists. repeat split. exact TO.
    + destruct C as [(-> & -> & _)|(_ & _ & C)]; [|destruct (C Q)]. eexists. repeat split. exact TO.
Qed.

Lemma notoken_string : forall r, (forall r', DQ :: r <> quote3 ++ r') ->
  (forall t rest, StrBody t -> r <> t ++ DQ :: rest) -> NoToken (DQ :: r).
Proof.
  intros r N S txt k v r' T E. inversion T; subst; simpl in E; inversion E; subst.
  - eapply sym_delim; eauto using delim_dq.
  - eapply num_delim; eauto using delim_dq.
  - apply (S v r'); auto. rewrite <- app_assoc. reflexivity.
  - eapply N. reflexivity.
Qed.
Lemma notoken_triple : forall r, (forall t rest, TripleBody t -> r <> t ++ quote3 ++ rest) ->
  NoToken (quote3 ++ r).
Proof.
  intros r S txt k v r' T E. inversion T; subst; simpl in E; inversion E; subst.
  - eapply sym_delim; eauto using delim_dq.
  - eapply num_delim; eauto using delim_dq.
  - rewrite <- app_assoc in *. match goal with Q : StrBody _ |- _ => inversion Q; subst end; simpl in *.
    + match goal with Q : DQ :: DQ :: r = _ |- _ => injection Q as Q end. subst.
      match goal with Q : ~ _ |- _ => apply Q end. split; auto. eexists; reflexivity.
    + match goal with Q : DQ :: DQ :: r = _ |- _ => injection Q as Q end. subst. contradiction.
    + discriminate.
  - apply (S v r'); auto. rewrite <- app_assoc. reflexivity.
Qed.

(** What reading a token does where there is a defect. *)
Lemma bad_start : forall x k here n, BadExpr unescape x k here n -> forall s, l_rest s = x -> utf8 x ->
  reports s k here n (peek s) \/ exists tok s2, Tok s tok s2.
Proof.
  assert (P : forall s k here n, reports s k here n (consume s) -> reports s k here n (peek s)).
  { intros s k here n (st & E & Q). rewrite peek_eq, E. exists st. auto. }
  intros x k here n H s E U. destruct H.
  - right. destruct (tok_make id s bl w [")"%char] TRParen [")"%char] r E H (tt_rparen r)) as (tok & s2 & T & _). eauto.
  - left. apply P. rewrite <- E in U. eapply (proj1 (consume_open s bl w r U H E (notoken_string r H0 H1))); eauto.
  - left. apply P. rewrite <- E in U. eapply (proj2 (consume_open s bl w _ U H E (notoken_triple r H0))). eexists; reflexivity.
  - right. destruct (tok_make id s bl w _ _ _ _ E H H0) as (tok & s2 & T & _). eauto.
  - right. destruct (tok_make id s bl w (":"%char :: t) TKeyword t mid E H (tt_kw t mid H0 H1)) as (tok & s2 & T & _). eauto.
  - right. destruct (tok_make id s bl w (":"%char :: t) TKeyword t mid E H (tt_kw t mid H0 H1)) as (tok & s2 & T & _). eauto.
  - right. destruct (tok_make id s bl w ["("%char] TLParen ["("%char] mid E H (tt_lparen mid)) as (tok & s2 & T & _). eauto.
  - right. destruct (tok_make id s bl w ["("%char] TLParen ["("%char] mid E H (tt_lparen mid)) as (tok & s2 & T & _). eauto.
Qed.

Lemma bad_not_trailing : forall x k here n, BadExpr unescape x k here n -> utf8 x -> ~ Trailing x.
Proof.
  intros x k here n H U T.
  destruct (bad_start _ _ _ _ H (lex_new x) eq_refl U) as [(st & P & _)|(tok & s2 & Q)].
  - rewrite peek_eq in P. destruct (consume_whitespace (lex_new x)) as [w s1] eqn:EW.
    pose proof (cw_trailing (lex_new x) T) as R. rewrite EW in R. cbn [snd] in R.
    rewrite (consume_eq id _ _ _ EW) in P. unfold consume_body, peek_char in P. rewrite R in P. discriminate.
  - eapply (tok_not_trailing id (lex_new x)); eauto.
Qed.

Lemma bad_reports :
  (forall x k here n, BadExpr unescape x k here n -> forall s fuel, l_rest s = x -> utf8 x -> 2 * length x <= fuel ->
     reports s k here n (parse_expr fuel s)) /\
  (forall x k here n, BadItems unescape x k here n -> forall s fuel, l_rest s = x -> utf8 x -> 2 * length x < fuel ->
     reports s k here n (parse_items fuel s)).
Proof.
  apply B_mutind.
  - intros bl w r B s fuel E U L. rewrite app_length in L. simpl in L. destruct fuel as [|f]; [lia|].
    destruct (tok_make id s bl w [")"%char] TRParen [")"%char] r E B (tt_rparen r)) as (tok & s2 & T & R & K & _).
    rewrite <- E in U. rewrite parse_expr_S, (peek_tok _ _ _ _ U T). cbn [bind]. rewrite K. cbn [kind_of].
    destruct (tok_place _ _ _ T) as (bl' & txt & k & E' & B' & TT & K' & SP & O). rewrite K in K'.
    destruct k; try discriminate. inversion TT; subst txt. rewrite R in O. eexists. split; [reflexivity|]. auto.
  - intros bl w r B N S s fuel E U L. rewrite app_length in L. simpl in L. destruct fuel as [|f]; [lia|].
    rewrite parse_expr_S. apply reports_bind.
    assert (Q : BadExpr unescape (bl ++ DQ :: r) EUnclosedString (DQ :: r) 1) by (eapply b_string; eauto).
    destruct (bad_start _ _ _ _ Q s E U) as [P|(tok & s2 & T)]; auto. exfalso.
    rewrite <- E in U. destruct (proj1 (consume_open s bl w r U B E (notoken_string r N S)) N) as (st & P & _).
    rewrite (tok_complete _ _ _ _ U T) in P. discriminate.
  - intros bl w r B S s fuel E U L. rewrite app_length in L. simpl in L. destruct fuel as [|f]; [lia|].
    rewrite parse_expr_S. apply reports_bind.
    assert (Q : BadExpr unescape (bl ++ quote3 ++ r) EUnclosedTriple (quote3 ++ r) 3) by (eapply b_triple; eauto).
    destruct (bad_start _ _ _ _ Q s E U) as [P|(tok & s2 & T)]; auto. exfalso.
    rewrite <- E in U. destruct (proj2 (consume_open s bl w _ U B E (notoken_triple r S)) ltac:(eexists; reflexivity)) as (st & P & _).
    rewrite (tok_complete _ _ _ _ U T) in P. discriminate.
  - intros bl w txt t rest B TT EV s fuel E U L.
    destruct (toktext_start _ _ _ _ TT) as (c & t0 & Et & _).
    rewrite !app_length in L. rewrite Et in L. simpl in L. destruct fuel as [|f]; [lia|]. clear Et.
    destruct (tok_make id s bl w _ _ _ _ E B TT) as (tok & s2 & T & R & K & V & _).
    rewrite <- E in U. rewrite parse_expr_S, (peek_tok _ _ _ _ U T). cbn [bind]. rewrite K. cbn [kind_of].
    apply reports_bind. unfold Parser.parse_atomic. rewrite (tok_complete _ _ _ _ U T). cbn [bind]. rewrite K. cbn [kind_of].
    rewrite V, EV. cbn [bind].
    destruct T as (bl' & w' & s1 & txt' & k & v & B' & A1 & A2 & TT' & ->). cbn in *.
    assert (BB : txt' = txt).
    { destruct (toktext_start _ _ _ _ TT) as (c1 & t1 & Q1 & TS1). destruct (toktext_start _ _ _ _ TT') as (c2 & t2 & Q2 & TS2).
      assert (R1 : l_rest s = bl ++ c1 :: t1 ++ rest) by (rewrite E, Q1; reflexivity).
      assert (R2 : l_rest s = bl' ++ c2 :: t2 ++ l_rest s2) by (rewrite (proj1 A1), (proj1 A2), Q2; reflexivity).
      destruct (cw_complete bl w s c1 _ B R1 TS1) as [EW RM]. destruct (cw_complete bl' w' s c2 _ B' R2 TS2) as [EW' RM'].
      assert (EM : move 1 bl s = move 1 bl' s) by congruence.
      assert (RR : txt ++ rest = txt' ++ l_rest s2).
      { rewrite Q1, Q2. simpl. rewrite <- RM, <- RM', EM. reflexivity. }
      destruct (toktext_unique _ _ _ _ _ _ _ _ TT TT' RR) as (-> & _). reflexivity. }
    subst txt'. eexists. split; [reflexivity|]. cbn. split; auto.
    rewrite <- (adv_total _ _ _ _ A1). unfold total. rewrite (proj1 A2), R. reflexivity.
  - intros bl w t mid B I ST C s fuel E U L. rewrite app_length in L. simpl in L. rewrite app_length in L.
    destruct fuel as [|f]; [lia|].
    destruct (tok_make id s bl w (":"%char :: t) TKeyword t mid E B (tt_kw t mid I ST)) as (tok & s2 & T & R & K & V & _).
    rewrite <- E in U. rewrite parse_expr_S, (peek_tok _ _ _ _ U T). cbn [bind]. rewrite K. cbn [kind_of].
    rewrite (tok_complete _ _ _ _ U T). cbn [bind]. rewrite K. cbn [kind_of].
    destruct (tok_utf8 _ _ _ _ U T) as [U2 LT].
    destruct (tok_place _ _ _ T) as (bl' & txt & k & E' & B' & TT & K' & SP & O). rewrite K in K'.
    destruct k; try discriminate. inversion TT; subst txt. rewrite V, R in *.
    assert (RP : reports s EKeywordNoValue (":"%char :: t ++ mid) (S (length t))
        (@Err (node * lex) (EErr EKeywordNoValue (t_site tok)))).
    { subst t0. exists (t_site tok). split; [reflexivity|]. split; [exact SP|exact O]. }
    destruct (eof_spec s2) as (x & Ex & Ix). rewrite Ex. cbn [bind]. destruct x; [exact RP|].
    destruct C as [C|C]. { exfalso. rewrite R in Ix. apply Ix in C. discriminate. }
    destruct C as (bl2 & w2 & r2 & B2 & E2). rewrite <- R in E2.
    destruct (tok_make id s2 bl2 w2 [")"%char] TRParen [")"%char] r2 E2 B2 (tt_rparen r2)) as (tok2 & s3 & T2 & _ & K2 & _).
    rewrite (peek_tok _ s2 _ _ ltac:(rewrite R; auto) T2). cbn [bind]. rewrite K2. exact RP.
  - intros bl w t mid k here n B I ST NC H IH s fuel E U L. rewrite app_length in L. simpl in L. rewrite app_length in L.
    destruct fuel as [|f]; [lia|].
    destruct (tok_make id s bl w (":"%char :: t) TKeyword t mid E B (tt_kw t mid I ST)) as (tok & s2 & T & R & K & V & _).
    rewrite <- E in U. rewrite parse_expr_S, (peek_tok _ _ _ _ U T). cbn [bind]. rewrite K. cbn [kind_of].
    rewrite (tok_complete _ _ _ _ U T). cbn [bind]. rewrite K. cbn [kind_of].
    destruct (tok_utf8 _ _ _ _ U T) as [U2 LT]. assert (U3 : utf8 mid) by (rewrite <- R; exact U2).
    eapply reports_from; [exact (tok_total _ _ _ T)|].
    rewrite eof_false by (rewrite R; eapply bad_not_trailing; eauto). cbn [bind].
    destruct (bad_start _ _ _ _ H s2 R U3) as [P|(tok2 & s3 & T2)]; [apply reports_bind; exact P|].
    rewrite (peek_tok _ s2 _ _ U2 T2). cbn [bind].
    pose proof (tok_closes _ _ _ U2 T2) as CL. rewrite R in CL.
    pose proof (IH s2 f R U3 ltac:(lia)) as HH.
    destruct (t_kind tok2) eqn:EK; try (apply reports_bind; exact HH). exfalso. apply NC, CL. reflexivity.
  - intros bl w mid es B P s fuel E U L. rewrite app_length in L. simpl in L.
    destruct fuel as [|f]; [lia|].
    destruct (tok_make id s bl w ["("%char] TLParen ["("%char] mid E B (tt_lparen mid)) as (tok & s2 & T & R & K & V & _).
    rewrite <- E in U. rewrite parse_expr_S, (peek_tok _ _ _ _ U T). cbn [bind]. rewrite K. cbn [kind_of].
    rewrite (tok_complete _ _ _ _ U T). cbn [bind]. rewrite K. cbn [kind_of].
    destruct (tok_utf8 _ _ _ _ U T) as [U2 LT].
    destruct (tok_place _ _ _ T) as (bl' & txt & k & E' & B' & TT & K' & SP & O). rewrite K in K'.
    destruct k; try discriminate. inversion TT; subst txt. rewrite R in *.
    assert (Q : forall x es, Program unescape x es -> forall s g, l_rest s = x -> utf8 x -> 2 * length x < g ->
      exists ns s', parse_items g s = Ok (ns, None, s')).
    { clear. intros x es P. induction P as [t T|x e mid es HE HP IH]; intros s g E U L; (destruct g as [|g]; [lia|]); rewrite parse_items_S.
      - destruct (eof_spec s) as (y & Ey & Iy). rewrite Ey. cbn [bind]. rewrite (proj2 Iy) by (rewrite E; exact T). eauto.
      - destruct (proj1 (grammar_g unescape id) _ _ _ HE s E) as (n & s1 & G & SN & R1).
        rewrite <- E in U. destruct (proj1 (g_utf8 unescape id) _ _ _ G U) as [U1 LT].
        pose proof (proj1 (g_complete unescape id) _ _ _ G U g ltac:(rewrite E; lia)) as PE.
        destruct (g_start _ _ _ _ _ G) as (tok2 & s3 & T2 & K2).
        rewrite (eof_tok _ _ _ _ U T2). cbn [bind]. rewrite (peek_tok _ _ _ _ U T2). cbn [bind].
        rewrite <- R1 in IH. destruct (IH s1 g eq_refl U1) as (ns & s' & IE). { rewrite E in LT. lia. }
        exists (n :: ns), s'.
        destruct (t_kind tok2) eqn:EK; try congruence; rewrite PE; cbn [bind]; rewrite IE; reflexivity. }
    destruct (Q mid es P s2 f R U2 ltac:(lia)) as (ns & s' & ->). cbn [bind].
    eexists. split; [reflexivity|]. auto.
  - intros bl w mid k here n B H IH s fuel E U L. rewrite app_length in L. simpl in L.
    destruct fuel as [|f]; [lia|].
    destruct (tok_make id s bl w ["("%char] TLParen ["("%char] mid E B (tt_lparen mid)) as (tok & s2 & T & R & K & V & _).
    rewrite <- E in U. rewrite parse_expr_S, (peek_tok _ _ _ _ U T). cbn [bind]. rewrite K. cbn [kind_of].
    rewrite (tok_complete _ _ _ _ U T). cbn [bind]. rewrite K. cbn [kind_of].
    destruct (tok_utf8 _ _ _ _ U T) as [U2 LT]. rewrite R in U2.
    eapply reports_from; [exact (tok_total _ _ _ T)|]. apply reports_bind. apply (IH s2 f R U2). lia.
  - intros x k here n NC H IH s fuel E U L. destruct fuel as [|f]; [lia|]. rewrite parse_items_S.
    rewrite eof_false by (rewrite E; eapply bad_not_trailing; eauto). cbn [bind].
    destruct (bad_start _ _ _ _ H s E U) as [P|(tok2 & s3 & T2)]; [apply reports_bind; exact P|].
    pose proof (IH s f E U ltac:(lia)) as HH. rewrite <- E in U.
    rewrite (peek_tok _ s _ _ U T2). cbn [bind]. pose proof (tok_closes _ _ _ U T2) as CL. rewrite E in CL.
    destruct (t_kind tok2) eqn:EK; try (apply reports_bind; exact HH). exfalso. apply NC, CL. reflexivity.
  - intros x e mid k here n HE H IH s fuel E U L. destruct fuel as [|f]; [lia|]. rewrite parse_items_S.
    destruct (proj1 (grammar_g unescape id) _ _ _ HE s E) as (nd & s1 & G & SN & R1).
    rewrite <- E in U. destruct (proj1 (g_utf8 unescape id) _ _ _ G U) as [U1 LT].
    pose proof (proj1 (g_complete unescape id) _ _ _ G U f ltac:(rewrite E; lia)) as PE.
    destruct (g_start _ _ _ _ _ G) as (tok2 & s3 & T2 & K2).
    rewrite (eof_tok _ _ _ _ U T2). cbn [bind]. rewrite (peek_tok _ _ _ _ U T2). cbn [bind].
    rewrite R1 in U1. rewrite E, R1 in LT.
    eapply reports_from; [exact (proj1 g_total _ _ _ G)|].
    pose proof (IH s1 f R1 U1 ltac:(lia)) as HH.
    destruct (t_kind tok2) eqn:EK; try congruence; rewrite PE; cbn [bind]; apply reports_bind; exact HH.
Qed.

Lemma bad_program_reports : forall x k here n, BadProgram unescape x k here n ->
  forall s fuel, l_rest s = x -> utf8 x -> 2 * length x < fuel -> reports s k here n (parse_loop fuel s).
Proof.
  intros x k here n H. induction H as [x k here n H|x e mid k here n HE H IH]; intros s fuel E U L;
    (destruct fuel as [|f]; [lia|]); cbn [Parser.parse_loop].
  - rewrite eof_false by (rewrite E; eapply bad_not_trailing; eauto). cbn [bind]. apply reports_bind.
    apply (proj1 bad_reports _ _ _ _ H); auto. lia.
  - destruct (proj1 (grammar_g unescape id) _ _ _ HE s E) as (nd & s1 & G & SN & R1).
    rewrite <- E in U. destruct (proj1 (g_utf8 unescape id) _ _ _ G U) as [U1 LT].
    pose proof (proj1 (g_complete unescape id) _ _ _ G U f ltac:(rewrite E; lia)) as PE.
    destruct (g_start _ _ _ _ _ G) as (tok2 & s3 & T2 & K2).
    rewrite (eof_tok _ _ _ _ U T2). cbn [bind]. rewrite PE. cbn [bind]. apply reports_bind.
    rewrite R1 in U1. rewrite E, R1 in LT. eapply reports_from; [exact (proj1 g_total _ _ _ G)|].
    apply (IH s1 f R1 U1). lia.
Qed.

(** ** Where a defect is *)

Definition suffix (x y : bytes) : Prop := exists pre, y = pre ++ x.
Lemma suffix_app x y z : suffix x y -> suffix x (z ++ y).
Proof. intros [p ->]. exists (z ++ p). rewrite app_assoc. reflexivity. Qed.
Lemma suffix_cons x y c : suffix x y -> suffix x (c :: y).
Proof. intros H. exact (suffix_app x y [c] H). Qed.
Lemma suffix_refl x : suffix x x.
Proof. exists []. reflexivity. Qed.
Lemma suffix_trans x y z : suffix x y -> suffix y z -> suffix x z.
Proof. intros [p ->] [q ->]. exists (q ++ p). rewrite app_assoc. reflexivity. Qed.

Lemma expr_suffix : (forall x e rest, Expr unescape x e rest -> suffix rest x) /\
  (forall x es ew rest, Items unescape x es ew rest -> suffix rest x).
Proof.
  apply E_mutind; intros; repeat first [apply suffix_app | apply suffix_cons | apply suffix_refl | assumption].
  eapply suffix_trans; eauto.
Qed.

(** Which characters a defect can start with. *)
Definition defect_char (k : ekind) (c : ascii) : Prop :=
  match k with
  | EUnclosedString | EUnclosedTriple | EBadEscape => c = DQ
  | EUnexpectedRParen => c = ")"%char
  | EExpectedRParen => c = "("%char
  | EKeywordNoValue => c = ":"%char
  | _ => False
  end.

Lemma bad_suffix :
  (forall x k here n, BadExpr unescape x k here n -> suffix here x /\ exists c r, here = c :: r /\ defect_char k c) /\
  (forall x k here n, BadItems unescape x k here n -> suffix here x /\ exists c r, here = c :: r /\ defect_char k c).
Proof.
  apply B_mutind; intros; try (destruct H as [S C]; split; [|exact C]);
    try (split; [repeat first [exact (suffix_refl _) | apply suffix_app | apply suffix_cons]|]);
    try (do 2 eexists; split; reflexivity);
    try (repeat first [apply suffix_app | apply suffix_cons | apply suffix_refl | assumption]; fail).
  - match goal with T : TokText _ _ _ _ |- _ => inversion T end; subst; do 2 eexists; split; reflexivity.
  - eapply suffix_trans; [exact S|]. eapply (proj1 expr_suffix); eassumption.
Qed.
Lemma bad_program_suffix : forall x k here n, BadProgram unescape x k here n ->
  suffix here x /\ exists c r, here = c :: r /\ defect_char k c.
Proof.
  intros x k here n H. induction H as [x k here n H|x e mid k here n HE H [S C]].
  - exact (proj1 bad_suffix _ _ _ _ H).
  - split; [|exact C]. eapply suffix_trans; [exact S|]. apply (proj1 expr_suffix _ _ _ HE).
Qed.

Lemma suffix_at x src off : suffix x src -> off + length x = length src -> skipn off src = x.
Proof.
  intros [p ->] L. rewrite app_length in L. replace off with (length p) by lia.
  rewrite skipn_app, skipn_all, Nat.sub_diag. reflexivity.
Qed.

Theorem parse_error_iff : forall src k off n, utf8 src ->
  (exists st, parse unescape id src = Err (EErr k st) /\ s_off st = off /\ s_span st = n) <->
  off <= length src /\ BadProgram unescape src k (skipn off src) n.
Proof.
  intros src k off n U. transitivity (exists here, BadProgram unescape src k here n /\ off + length here = length src).
  2: { split.
    - intros (here & B & L). destruct (bad_program_suffix _ _ _ _ B) as [S _].
      rewrite (suffix_at _ _ _ S L). split; [lia|exact B].
    - intros [L B]. eexists. split; [exact B|]. rewrite skipn_length. lia. }
  split.
  - intros (st & E & <- & <-). pose proof (loop_faults (parse_fuel src) (lex_new src) U) as F.
    cbn [l_rest lex_new] in F. specialize (F ltac:(unfold parse_fuel; lia)). unfold parse in E. rewrite E in F. exact F.
  - intros (here & B & O).
    destruct (bad_program_reports _ _ _ _ B (lex_new src) (parse_fuel src) eq_refl U ltac:(unfold parse_fuel; lia)) as (st & E & S & Q).
    exists st. split; [exact E|]. split; [|exact S]. unfold total in Q. cbn in Q. lia.
Qed.
End P.
