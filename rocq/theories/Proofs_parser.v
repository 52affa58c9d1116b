(** * The parser computes exactly the grammar *)

From Coq Require Import List Ascii Bool Arith Lia.
From Verif Require Import Text Utf8 Res Lexer Ast Parser Spec_grammar Spec_tree
  Proofs_text Proofs_lexer Proofs_token Proofs_ast.
Import ListNotations.

Section P.
Variable unescape : bytes -> option bytes.
Variable id : nat.

Notation Tok := (Tok id).
Notation consume := (consume id).
Notation peek := (peek id).
Notation parse_atomic := (Parser.parse_atomic unescape id).
Notation parse_expr := (Parser.parse_expr unescape id).
Notation parse_items := (Parser.parse_items unescape id).
Notation parse_loop := (parse_loop unescape id).

Lemma parse_expr_S : forall f s, parse_expr (S f) s =
    let* '(tok, s) := peek s in
    match t_kind tok with
    | KLParen =>
        let* '(lparen, s) := consume s in
        match t_kind lparen with
        | KLParen =>
            let* '(elements, rparen, s) := parse_items f s in
            match rparen with
            | None => Err (EErr EExpectedRParen (t_site lparen))
            | Some rp =>
                Ok (Lst elements (t_site lparen) (t_ws rp) (t_site rp) (t_ws lparen), s)
            end
        | _ => Panic PUnwrap
        end
    | KRParen => Err (EErr EUnexpectedRParen (t_site tok))
    | KKeyword =>
        let* '(kw, s) := consume s in
        match t_kind kw with
        | KKeyword =>
            let* '(at_eof, s) := eof s in
            if (at_eof : bool) then Err (EErr EKeywordNoValue (t_site kw)) else
            let* '(next, s) := peek s in
            match t_kind next with
            | KRParen => Err (EErr EKeywordNoValue (t_site kw))
            | _ =>
                let* '(value, s) := parse_expr f s in
                Ok (Attr (t_value kw) value (t_site kw) (t_ws kw), s)
            end
        | _ => Panic PUnwrap
        end
    | KSymbol => let* '(a, s) := parse_atomic s in Ok (Sym a, s)
    | KString => let* '(a, s) := parse_atomic s in Ok (Str a, s)
    | KNumber => let* '(a, s) := parse_atomic s in Ok (Num a, s)
    end.
Proof. reflexivity. Qed.
Lemma parse_items_S : forall f s, parse_items (S f) s =
    let* '(at_eof, s) := eof s in
    if (at_eof : bool) then Ok ([], None, s) else
    let* '(tok, s) := peek s in
    match t_kind tok with
    | KRParen =>
        let* '(rp, s) := consume s in Ok ([], Some rp, s)
    | _ =>
        let* '(e, s) := parse_expr f s in
        let* '(es, rp, s) := parse_items f s in
        Ok (e :: es, rp, s)
    end.
Proof. reflexivity. Qed.

Definition tok_atom (tok : token) (v : bytes) : atom := Atom v (t_site tok) (t_ws tok).

(** The parser as a relation on lexer states. *)
Inductive GExpr : lex -> node -> lex -> Prop :=
| g_sym : forall s tok s2, Tok s tok s2 -> t_kind tok = KSymbol ->
    GExpr s (Sym (tok_atom tok (unbackslash (t_value tok)))) s2
| g_num : forall s tok s2, Tok s tok s2 -> t_kind tok = KNumber ->
    GExpr s (Num (tok_atom tok (unbackslash (t_value tok)))) s2
| g_str : forall s tok s2 v, Tok s tok s2 -> t_kind tok = KString ->
    unescape (t_value tok) = Some v ->
    GExpr s (Str (tok_atom tok v)) s2
| g_attr : forall s tok s1 v s2, Tok s tok s1 -> t_kind tok = KKeyword ->
    GExpr s1 v s2 ->
    GExpr s (Attr (t_value tok) v (t_site tok) (t_ws tok)) s2
| g_list : forall s tok s1 es rp s2, Tok s tok s1 -> t_kind tok = KLParen ->
    GItems s1 es rp s2 ->
    GExpr s (Lst es (t_site tok) (t_ws rp) (t_site rp) (t_ws tok)) s2
with GItems : lex -> list node -> token -> lex -> Prop :=
| gi_end : forall s rp s2, Tok s rp s2 -> t_kind rp = KRParen -> GItems s [] rp s2
| gi_cons : forall s e s1 es rp s2, GExpr s e s1 -> GItems s1 es rp s2 ->
    GItems s (e :: es) rp s2.

Inductive GProg : lex -> list node -> Prop :=
| gp_end : forall s, Trailing (l_rest s) -> GProg s []
| gp_cons : forall s e s1 es, GExpr s e s1 -> GProg s1 es -> GProg s (e :: es).

Scheme GExpr_mind := Induction for GExpr Sort Prop
  with GItems_mind := Induction for GItems Sort Prop.
Combined Scheme G_mutind from GExpr_mind, GItems_mind.

Lemma g_start : forall s n s', GExpr s n s' -> exists tok s1, Tok s tok s1 /\ t_kind tok <> KRParen.
Proof. intros s n s' H. inversion H; subst; do 2 eexists; split; eauto; congruence. Qed.

(** ** Completeness *)

Lemma g_utf8 :
  (forall s n s', GExpr s n s' -> utf8 (l_rest s) ->
     utf8 (l_rest s') /\ length (l_rest s') < length (l_rest s)) /\
  (forall s es rp s', GItems s es rp s' -> utf8 (l_rest s) ->
     utf8 (l_rest s') /\ length (l_rest s') < length (l_rest s)).
Proof.
  apply G_mutind; intros.
  - eapply tok_utf8; eauto.
  - eapply tok_utf8; eauto.
  - eapply tok_utf8; eauto.
  - destruct (tok_utf8 _ _ _ _ H0 t). destruct (H H1). split; auto. lia.
  - destruct (tok_utf8 _ _ _ _ H0 t). destruct (H H1). split; auto. lia.
  - eapply tok_utf8; eauto.
  - destruct (H H1). destruct (H0 H2). split; auto. lia.
Qed.

Lemma peek_tok : forall s tok s2, utf8 (l_rest s) -> Tok s tok s2 -> peek s = Ok (tok, s).
Proof. intros. rewrite peek_eq, (tok_complete _ _ _ _ H H0). reflexivity. Qed.

Lemma eof_tok : forall s tok s2, utf8 (l_rest s) -> Tok s tok s2 -> eof s = Ok (false, s).
Proof.
  intros s tok s2 U H. destruct (eof_spec s) as (x & E & I). rewrite E.
  destruct x; auto. exfalso. eapply tok_not_trailing; eauto. tauto.
Qed.

Lemma sanitize_eq : forall t, escape_sanitize t = unbackslash t.
Proof. reflexivity. Qed.

Lemma g_complete :
  (forall s n s', GExpr s n s' -> utf8 (l_rest s) ->
     forall fuel, 2 * length (l_rest s) <= fuel -> parse_expr fuel s = Ok (n, s')) /\
  (forall s es rp s', GItems s es rp s' -> utf8 (l_rest s) ->
     forall fuel, 2 * length (l_rest s) < fuel -> parse_items fuel s = Ok (es, Some rp, s')).
Proof.
  apply G_mutind.
  - intros s tok s2 T K U fuel L.
    destruct (tok_utf8 _ _ _ _ U T) as [U2 LT].
    destruct fuel as [|f]; [lia|]. rewrite parse_expr_S.
    rewrite (peek_tok _ _ _ U T). cbn [bind]. rewrite K.
    unfold Parser.parse_atomic. rewrite (tok_complete _ _ _ _ U T). cbn [bind]. rewrite K. reflexivity.
  - intros s tok s2 T K U fuel L.
    destruct (tok_utf8 _ _ _ _ U T) as [U2 LT].
    destruct fuel as [|f]; [lia|]. rewrite parse_expr_S.
    rewrite (peek_tok _ _ _ U T). cbn [bind]. rewrite K.
    unfold Parser.parse_atomic. rewrite (tok_complete _ _ _ _ U T). cbn [bind]. rewrite K. reflexivity.
  - intros s tok s2 v T K Ev U fuel L.
    destruct (tok_utf8 _ _ _ _ U T) as [U2 LT].
    destruct fuel as [|f]; [lia|]. rewrite parse_expr_S.
    rewrite (peek_tok _ _ _ U T). cbn [bind]. rewrite K.
    unfold Parser.parse_atomic. rewrite (tok_complete _ _ _ _ U T). cbn [bind]. rewrite K, Ev. reflexivity.
  - intros s tok s1 v s2 T K G IH U fuel L.
    destruct (tok_utf8 _ _ _ _ U T) as [U2 LT].
    destruct fuel as [|f]; [lia|]. rewrite parse_expr_S.
    rewrite (peek_tok _ _ _ U T). cbn [bind]. rewrite K.
    rewrite (tok_complete _ _ _ _ U T). cbn [bind]. rewrite K.
    destruct (g_start _ _ _ G) as (tok2 & s3 & T2 & K2).
    rewrite (eof_tok _ _ _ U2 T2). cbn [bind].
    rewrite (peek_tok _ _ _ U2 T2). cbn [bind].
    pose proof (IH U2 f ltac:(lia)) as R1.
    destruct (t_kind tok2) eqn:EK; try congruence; rewrite R1; reflexivity.
  - intros s tok s1 es rp s2 T K G IH U fuel L.
    destruct (tok_utf8 _ _ _ _ U T) as [U2 LT].
    destruct fuel as [|f]; [lia|]. rewrite parse_expr_S.
    rewrite (peek_tok _ _ _ U T). cbn [bind]. rewrite K.
    rewrite (tok_complete _ _ _ _ U T). cbn [bind]. rewrite K.
    rewrite (IH U2 f) by lia. reflexivity.
  - intros s rp s2 T K U fuel L.
    destruct fuel as [|f]; [lia|]. rewrite parse_items_S.
    rewrite (eof_tok _ _ _ U T). cbn [bind].
    rewrite (peek_tok _ _ _ U T). cbn [bind]. rewrite K.
    rewrite (tok_complete _ _ _ _ U T). reflexivity.
  - intros s e s1 es rp s2 G IH G2 IH2 U fuel L.
    destruct (proj1 g_utf8 _ _ _ G U) as [U1 LT].
    destruct fuel as [|f]; [lia|]. rewrite parse_items_S.
    destruct (g_start _ _ _ G) as (tok2 & s3 & T2 & K2).
    rewrite (eof_tok _ _ _ U T2). cbn [bind].
    rewrite (peek_tok _ _ _ U T2). cbn [bind].
    pose proof (IH U f ltac:(lia)) as R1. pose proof (IH2 U1 f ltac:(lia)) as R2.
    destruct (t_kind tok2) eqn:EK; try congruence;
      rewrite R1; cbn [bind]; rewrite R2; reflexivity.
Qed.

Lemma gprog_complete : forall s es, GProg s es -> utf8 (l_rest s) ->
  forall fuel, 2 * length (l_rest s) < fuel -> parse_loop fuel s = Ok es.
Proof.
  intros s es H. induction H as [s T|s e s1 es G GP IH]; intros U fuel L.
  - destruct fuel as [|f]; [lia|]. cbn [Parser.parse_loop].
    destruct (eof_spec s) as (x & E & I). rewrite E. cbn [bind].
    rewrite (proj2 I T). reflexivity.
  - destruct (proj1 g_utf8 _ _ _ G U) as [U1 LT].
    destruct fuel as [|f]; [lia|]. cbn [Parser.parse_loop].
    destruct (g_start _ _ _ G) as (tok2 & s3 & T2 & K2).
    rewrite (eof_tok _ _ _ U T2). cbn [bind].
    rewrite (proj1 g_complete _ _ _ G U f) by lia. cbn [bind].
    rewrite (IH U1 f) by lia. reflexivity.
Qed.

(** ** Relation to the grammar *)

Lemma tok_inv : forall s tok s2, Tok s tok s2 ->
  exists bl txt k, l_rest s = bl ++ txt ++ l_rest s2 /\ Blank bl (t_ws tok) /\
    TokText txt k (t_value tok) (l_rest s2) /\ t_kind tok = kind_of k.
Proof.
  intros s tok s2 (bl & w & s1 & txt & k & v & B & A1 & A2 & T & ->). simpl.
  exists bl, txt, k. split; auto. rewrite (proj1 A1), (proj1 A2). reflexivity.
Qed.

Lemma g_grammar :
  (forall s n s', GExpr s n s' -> Expr unescape (l_rest s) (strip n) (l_rest s')) /\
  (forall s es rp s', GItems s es rp s' -> Items unescape (l_rest s) (map strip es) (t_ws rp) (l_rest s')).
Proof.
  apply G_mutind; intros.
  - destruct (tok_inv _ _ _ t) as (bl & txt & k & E & B & T & K). rewrite E. rewrite e in K.
    destruct k; try discriminate. simpl. inversion T; subst. constructor; auto.
  - destruct (tok_inv _ _ _ t) as (bl & txt & k & E & B & T & K). rewrite E. rewrite e in K.
    destruct k; try discriminate. simpl. inversion T; subst. apply e_num; auto.
  - destruct (tok_inv _ _ _ t) as (bl & txt & k & E & B & T & K). rewrite E. rewrite e in K.
    destruct k; try discriminate. simpl. inversion T; subst.
    + simpl. rewrite <- app_assoc. simpl. apply e_str; auto.
    + rewrite <- !app_assoc. apply e_triple; auto.
  - destruct (tok_inv _ _ _ t) as (bl & txt & k & E & B & T & K). rewrite E. rewrite e in K.
    destruct k; try discriminate. simpl. inversion T; subst. simpl. apply e_attr; auto.
  - destruct (tok_inv _ _ _ t) as (bl & txt & k & E & B & T & K). rewrite E. rewrite e in K.
    destruct k; try discriminate. simpl. inversion T; subst. simpl. apply e_list; auto.
  - destruct (tok_inv _ _ _ t) as (bl & txt & k & E & B & T & K). rewrite E. rewrite e in K.
    destruct k; try discriminate. simpl. inversion T; subst. simpl. apply i_end; auto.
  - simpl. eapply i_cons; eauto.
Qed.

Lemma gprog_grammar : forall s es, GProg s es -> Program unescape (l_rest s) (map strip es).
Proof.
  intros s es H. induction H; simpl.
  - constructor; auto.
  - econstructor; [|exact IHGProg]. apply g_grammar; auto.
Qed.

Scheme Expr_mind := Induction for Expr Sort Prop
  with Items_mind := Induction for Items Sort Prop.
Combined Scheme E_mutind from Expr_mind, Items_mind.

Lemma tok_make : forall s bl w txt k v rest, l_rest s = bl ++ txt ++ rest -> Blank bl w ->
  TokText txt k v rest ->
  exists tok s2, Tok s tok s2 /\ l_rest s2 = rest /\ t_kind tok = kind_of k /\ t_value tok = v /\ t_ws tok = w.
Proof.
  intros s bl w txt k v rest E B T.
  pose proof (move_adv 1 bl s _ E) as A1.
  assert (E1 : l_rest (move 1 bl s) = txt ++ rest).
  { destruct A1 as (A1 & _). rewrite E in A1. apply app_inv_head in A1. auto. }
  pose proof (move_adv 2 txt _ _ E1) as A2.
  assert (E2 : l_rest (move 2 txt (move 1 bl s)) = rest).
  { destruct A2 as (A2 & _). rewrite E1 in A2. apply app_inv_head in A2. auto. }
  eexists. exists (move 2 txt (move 1 bl s)). split.
  - exists bl, w, (move 1 bl s), txt, k, v. rewrite E2. repeat (split; [eassumption|]). reflexivity.
  - rewrite E2. auto.
Qed.

Lemma grammar_g :
  (forall x e rest, Expr unescape x e rest -> forall s, l_rest s = x ->
     exists n s', GExpr s n s' /\ strip n = e /\ l_rest s' = rest) /\
  (forall x es ew rest, Items unescape x es ew rest -> forall s, l_rest s = x ->
     exists ns rp s', GItems s ns rp s' /\ map strip ns = es /\ t_ws rp = ew /\ l_rest s' = rest).
Proof.
  apply E_mutind.
  - intros bl w c t rest B SS I ST s E.
    destruct (tok_make s bl w (c :: t) TSymbol (c :: t) rest E B) as (tok & s2 & T & R & K & V & W).
    { constructor; auto. }
    eexists. exists s2. split; [apply g_sym; eauto|]. simpl. rewrite V, W. auto.
  - intros bl w c t rest B SS I ST s E.
    destruct (tok_make s bl w (c :: t) TNumber (c :: t) rest E B) as (tok & s2 & T & R & K & V & W).
    { apply tt_num; auto. }
    eexists. exists s2. split; [apply g_num; eauto|]. simpl. rewrite V, W. auto.
  - intros bl w t v rest B SB EV N s E.
    destruct (tok_make s bl w (DQ :: t ++ [DQ]) TString t rest) as (tok & s2 & T & R & K & V & W); auto.
    { rewrite E. simpl. rewrite <- app_assoc. reflexivity. }
    { apply tt_str; auto. }
    eexists. exists s2. split; [eapply g_str; eauto; rewrite V; eauto|]. simpl. rewrite W. auto.
  - intros bl w t v rest B SB EV s E.
    destruct (tok_make s bl w (quote3 ++ t ++ quote3) TString t rest) as (tok & s2 & T & R & K & V & W); auto.
    { rewrite E. rewrite <- !app_assoc. reflexivity. }
    { apply tt_triple; auto. }
    eexists. exists s2. split; [eapply g_str; eauto; rewrite V; eauto|]. simpl. rewrite W. auto.
  - intros bl w t mid v rest B I ST HE IH s E.
    destruct (tok_make s bl w (":"%char :: t) TKeyword t mid E B) as (tok & s2 & T & R & K & V & W).
    { constructor; auto. }
    destruct (IH s2 R) as (n & s3 & G & SN & R3).
    eexists. exists s3. split; [eapply g_attr; eauto|]. simpl. rewrite V, W, SN. auto.
  - intros bl w mid es ew rest B HI IH s E.
    destruct (tok_make s bl w ["("%char] TLParen ["("%char] mid E B) as (tok & s2 & T & R & K & V & W).
    { constructor. }
    destruct (IH s2 R) as (ns & rp & s3 & G & SN & EW & R3).
    eexists. exists s3. split; [eapply g_list; eauto|]. simpl. rewrite EW, W, SN. auto.
  - intros bl w rest B s E.
    destruct (tok_make s bl w [")"%char] TRParen [")"%char] rest E B) as (tok & s2 & T & R & K & V & W).
    { constructor. }
    exists [], tok, s2. split; [constructor; auto|]. auto.
  - intros x e mid es ew rest HE IHe HI IHi s E.
    destruct (IHe s E) as (n & s1 & G & SN & R1).
    destruct (IHi s1 R1) as (ns & rp & s2 & GI & SNs & EW & R2).
    exists (n :: ns), rp, s2. split; [econstructor; eauto|]. simpl. rewrite SN, SNs. auto.
Qed.

Lemma grammar_gprog : forall x es, Program unescape x es -> forall s, l_rest s = x ->
  exists ns, GProg s ns /\ map strip ns = es.
Proof.
  intros x es H. induction H as [t T|x e mid es HE HP IH]; intros s E.
  - exists []. split; auto. constructor. rewrite E. auto.
  - destruct (proj1 grammar_g _ _ _ HE s E) as (n & s1 & G & SN & R1).
    destruct (IH s1 R1) as (ns & GP & SNs). exists (n :: ns). split; [econstructor; eauto|].
    simpl. congruence.
Qed.

(** ** Soundness and totality *)

(** Outcomes that are not panics: a success satisfying [Q], an error, or the
    hang caused by a final backslash. *)
Definition ends_bs (x : bytes) : Prop := exists y, x = y ++ [BS].

Definition good {A} (H : Prop) (Q : A -> Prop) (r : res A) : Prop :=
  match r with
  | Ok a => Q a
  | Err _ => True
  | Panic _ => False
  | Hang => H
  | OutOfFuel => False
  end.

Lemma good_bind : forall A B (H : Prop) (Q : A -> Prop) (Q' : B -> Prop) r (k : A -> res B),
  good H Q r -> (forall a, Q a -> good H Q' (k a)) -> good H Q' (bind r k).
Proof. intros A B H Q Q' [a|e|p| |] k G HK; simpl in *; auto. Qed.

Lemma good_impl : forall A (H H' : Prop) (Q Q' : A -> Prop) r,
  good H' Q r -> (H' -> H) ->
  (forall a, Q a -> Q' a) -> good H Q' r.
Proof. intros A H H' Q Q' [a|e|p| |] G H1 H2; simpl in *; auto. Qed.

Definition DE (s : lex) : Prop := DanglingExpr unescape (l_rest s).
Definition DI (s : lex) : Prop := Dangling unescape (l_rest s).

Lemma consume_good : forall s, utf8 (l_rest s) -> ~ Trailing (l_rest s) ->
  good (DE s) (fun '(tok, s2) => Tok s tok s2 /\ utf8 (l_rest s2) /\
            length (l_rest s2) < length (l_rest s)) (consume s).
Proof.
  intros s U NT. destruct (consume_spec id s U); simpl; auto.
  unfold DE. rewrite H0. econstructor; eauto.
Qed.

Lemma peek_good : forall s, utf8 (l_rest s) -> ~ Trailing (l_rest s) ->
  good (DE s) (fun '(tok, s') => s' = s /\ exists s2, Tok s tok s2) (peek s).
Proof.
  intros s U NT. rewrite peek_eq. pose proof (consume_good s U NT) as G.
  destruct (consume s) as [[tok s2]| | | |]; simpl in *; auto.
  destruct G as (T & _). eauto.
Qed.

Lemma tok_list_dangling : forall s tok s1, Tok s tok s1 -> t_kind tok = KLParen -> DI s1 -> DE s.
Proof.
  intros s tok s1 T K D. destruct (tok_inv _ _ _ T) as (bl & txt & k & E & B & TT & K').
  rewrite K in K'. destruct k; try discriminate. inversion TT; subst.
  unfold DE. rewrite E. eapply d_list; eauto.
Qed.
Lemma tok_attr_dangling : forall s tok s1, Tok s tok s1 -> t_kind tok = KKeyword -> DE s1 -> DE s.
Proof.
  intros s tok s1 T K D. destruct (tok_inv _ _ _ T) as (bl & txt & k & E & B & TT & K').
  rewrite K in K'. destruct k; try discriminate. inversion TT; subst.
  unfold DE. rewrite E. eapply d_attr; eauto.
Qed.
Lemma expr_dangling : forall s n s1, GExpr s n s1 -> DI s1 -> DI s.
Proof. intros s n s1 G D. eapply d_skip; [apply g_grammar; exact G|exact D]. Qed.

Definition QE (s : lex) : node * lex -> Prop := fun '(n, s') =>
  GExpr s n s' /\ utf8 (l_rest s') /\ length (l_rest s') < length (l_rest s).
(** The item loop ends with a closing parenthesis or at the end of input. *)
Definition QI (s : lex) : list node * option token * lex -> Prop := fun '(es, rp, s') =>
  match rp with
  | Some rp => GItems s es rp s' /\ utf8 (l_rest s') /\ length (l_rest s') < length (l_rest s)
  | None => True
  end.

Lemma parse_atomic_good : forall s tok s2, utf8 (l_rest s) -> Tok s tok s2 ->
  (t_kind tok = KSymbol \/ t_kind tok = KNumber \/ t_kind tok = KString) ->
  good (DE s) (fun '(a, s') => s' = s2 /\
    ((t_kind tok = KString /\ exists v, unescape (t_value tok) = Some v /\ a = tok_atom tok v) \/
     (t_kind tok <> KString /\ a = tok_atom tok (unbackslash (t_value tok)))))
    (parse_atomic s).
Proof.
  intros s tok s2 U T K. unfold Parser.parse_atomic. rewrite (tok_complete _ _ _ _ U T). cbn [bind].
  destruct K as [K|[K|K]]; rewrite K; cbn [bind good].
  - split; auto. right. split; [congruence|reflexivity].
  - split; auto. right. split; [congruence|reflexivity].
  - destruct (unescape (t_value tok)) eqn:E; cbn [bind good]; auto. split; auto. left. eauto.
Qed.

Lemma parse_good : forall fuel,
  (forall s, utf8 (l_rest s) -> ~ Trailing (l_rest s) -> 2 * length (l_rest s) <= fuel ->
     good (DE s) (QE s) (parse_expr fuel s)) /\
  (forall s, utf8 (l_rest s) -> 2 * length (l_rest s) < fuel ->
     good (DI s) (QI s) (parse_items fuel s)).
Proof.
  induction fuel as [|f [IHe IHi]]; split.
  - intros s U NT L. exfalso. destruct (l_rest s) eqn:E; simpl in L; [|lia].
    apply NT. apply (trail_blank [] []). apply blank_ws. constructor.
  - intros s U L. lia.
  - intros s U NT L. rewrite parse_expr_S.
    eapply good_bind; [apply peek_good; auto|].
    intros [tok s0] (-> & s2 & T).
    destruct (tok_utf8 _ _ _ _ U T) as [U2 LT].
    destruct (t_kind tok) eqn:K.
    + rewrite (tok_complete _ _ _ _ U T). cbn [bind]. rewrite K.
      eapply good_bind.
      * eapply good_impl; [apply (IHi s2 U2); lia| |].
        -- eapply tok_list_dangling; eauto.
        -- intros a Ha. exact Ha.
      * intros [[es rp] s3] Q. destruct rp as [rp|]; cbn [good]; auto.
        destruct Q as (GI & U3 & L3). split; [|split; auto; lia]. econstructor; eauto.
    + exact I.
    + eapply good_bind; [apply (parse_atomic_good s tok s2); auto|].
      intros [a s'] (-> & [[K' _]|[_ ->]]); [congruence|]. cbn [good]. split; [|auto]. apply g_sym; auto.
    + eapply good_bind; [apply (parse_atomic_good s tok s2); auto|].
      intros [a s'] (-> & [[_ (v & Ev & ->)]|[K' _]]); [|congruence]. cbn [good]. split; [|auto]. apply g_str; auto.
    + eapply good_bind; [apply (parse_atomic_good s tok s2); auto|].
      intros [a s'] (-> & [[K' _]|[_ ->]]); [congruence|]. cbn [good]. split; [|auto]. apply g_num; auto.
    + rewrite (tok_complete _ _ _ _ U T). cbn [bind]. rewrite K.
      destruct (eof_spec s2) as (x & Ex & Ix). rewrite Ex. cbn [bind].
      destruct x; [exact I|].
      assert (NT2 : ~ Trailing (l_rest s2)). { intros H. apply Ix in H. discriminate. }
      eapply good_bind.
      * eapply good_impl; [apply (peek_good s2 U2 NT2)| |intros a Ha; exact Ha]. eapply tok_attr_dangling; eauto.
      * intros [nxt s0] (-> & s3 & T3).
        assert (R : good (DE s) (QE s) (let* ' (value, s0) := parse_expr f s2 in
                     Ok (Attr (t_value tok) value (t_site tok) (t_ws tok), s0))).
        { eapply good_bind.
          - eapply good_impl; [apply (IHe s2 U2 NT2); lia| |intros a Ha; exact Ha]. eapply tok_attr_dangling; eauto.
          - intros [v s4] (G4 & U4 & L4). cbn [good]. split; [|split; auto; lia]. econstructor; eauto. }
        destruct (t_kind nxt); auto. exact I.
  - intros s U L. rewrite parse_items_S.
    destruct (eof_spec s) as (x & Ex & Ix). rewrite Ex. cbn [bind].
    destruct x; [exact I|].
    assert (NT : ~ Trailing (l_rest s)). { intros H. apply Ix in H. discriminate. }
    eapply good_bind; [eapply good_impl; [apply (peek_good s U NT)|apply d_expr|intros a Ha; exact Ha]|].
    intros [tok s0] (-> & s2 & T).
    destruct (tok_utf8 _ _ _ _ U T) as [U2 LT].
    assert (R : t_kind tok <> KRParen -> good (DI s) (QI s)
       (let* ' (e, s0) := parse_expr f s in let* ' (es, rp, s1) := parse_items f s0 in Ok (e :: es, rp, s1))).
    { intros _. eapply good_bind.
      { eapply good_impl; [apply (IHe s); auto; lia|apply d_expr|intros a Ha; exact Ha]. }
      intros [e s1] (G & U1 & L1).
      eapply good_bind.
      - eapply good_impl; [apply (IHi s1 U1); lia| |intros a Ha; exact Ha].
        eapply expr_dangling; eauto.
      - intros [[es rp] s3] Q. cbn [good]. destruct rp as [rp|]; [|exact I].
        destruct Q as (GI & U3 & L3). split; [econstructor; eauto|]. split; auto. lia. }
    destruct (t_kind tok) eqn:K; try (apply R; congruence).
    rewrite (tok_complete _ _ _ _ U T). cbn [bind good QI]. split; [constructor; auto|]. split; auto.
Qed.

Lemma parse_loop_good : forall fuel s, utf8 (l_rest s) -> 2 * length (l_rest s) < fuel ->
  good (DI s) (fun es => GProg s es) (parse_loop fuel s).
Proof.
  induction fuel as [|f IH]; intros s U L; [lia|].
  cbn [Parser.parse_loop].
  destruct (eof_spec s) as (x & Ex & Ix). rewrite Ex. cbn [bind].
  destruct x. { cbn [good]. constructor. apply Ix; auto. }
  assert (NT : ~ Trailing (l_rest s)). { intros H. apply Ix in H. discriminate. }
  eapply good_bind.
  { eapply good_impl; [apply (proj1 (parse_good f) s); auto; lia|apply d_expr|intros a Ha; exact Ha]. }
  intros [e s1] (G & U1 & L1).
  eapply good_bind.
  - eapply good_impl; [apply (IH s1 U1); lia| |intros a Ha; exact Ha].
    eapply expr_dangling; eauto.
  - intros es GP. cbn [good]. econstructor; eauto.
Qed.

(** ** Sources that hang *)

Scheme DExpr_mind := Induction for DanglingExpr Sort Prop
  with Dang_mind := Induction for Dangling Sort Prop.
Combined Scheme D_mutind from DExpr_mind, Dang_mind.

Lemma dangling_ends :
  (forall x, DanglingExpr unescape x -> ends_bs x) /\
  (forall x, Dangling unescape x -> ends_bs x).
Proof.
  assert (A : forall x y, ends_bs y -> ends_bs (x ++ y)).
  { intros x y [z ->]. exists (x ++ z). rewrite app_assoc. reflexivity. }
  assert (EX : (forall x e r, Expr unescape x e r -> ends_bs r -> ends_bs x) /\
               (forall x es w r, Items unescape x es w r -> ends_bs r -> ends_bs x)).
  { apply E_mutind; intros; auto.
    - apply A. apply (A [DQ]). apply A. apply (A [DQ]). auto.
    - apply A. apply (A [":"%char]). auto.
    - apply A. apply (A ["("%char]). auto.
    - apply A. apply (A [")"%char]). auto. }
  apply D_mutind; intros; auto.
  - apply A. inversion c. eexists; reflexivity.
  - apply A. apply (A ["("%char]). auto.
  - apply A. apply (A [":"%char]). auto.
  - eapply (proj1 EX); eauto.
Qed.

(** A dangling text starts with a token or hangs at once. *)
Lemma dangling_start :
  (forall x, DanglingExpr unescape x -> forall s, l_rest s = x -> utf8 x ->
     ~ Trailing x /\ (peek s = Hang \/ exists tok s', peek s = Ok (tok, s) /\ Tok s tok s' /\ t_kind tok <> KRParen)).
Proof.
  intros x H. destruct H as [bl w x B C|bl w mid B D|bl w t mid B I ST D]; intros s E U.
  - split; [eapply cut_not_trailing; eauto|].
    left. rewrite peek_eq, (cut_hangs id s bl w x); auto; congruence.
  - destruct (tok_make s bl w ["("%char] TLParen ["("%char] mid) as (tok & s2 & T & R & K & V & W); auto.
    { constructor. }
    rewrite <- E in *.
    split; [eapply tok_not_trailing; eauto|]. right. exists tok, s2.
    split; [apply (peek_tok s tok s2); auto|]. split; auto. rewrite K. discriminate.
  - destruct (tok_make s bl w (":"%char :: t) TKeyword t mid) as (tok & s2 & T & R & K & V & W); auto.
    { constructor; auto. }
    rewrite <- E in *.
    split; [eapply tok_not_trailing; eauto|]. right. exists tok, s2.
    split; [apply (peek_tok s tok s2); auto|]. split; auto. rewrite K. discriminate.
Qed.

Lemma eof_false : forall s, ~ Trailing (l_rest s) -> eof s = Ok (false, s).
Proof.
  intros s H. destruct (eof_spec s) as (x & E & I). rewrite E. destruct x; auto. exfalso; tauto.
Qed.

Lemma dangling_hangs :
  (forall x, DanglingExpr unescape x -> forall s fuel, l_rest s = x -> utf8 x -> 2 * length x <= fuel ->
     parse_expr fuel s = Hang) /\
  (forall x, Dangling unescape x -> forall s fuel, l_rest s = x -> utf8 x -> 2 * length x < fuel ->
     parse_items fuel s = Hang /\ parse_loop fuel s = Hang).
Proof.
  apply D_mutind.
  - intros bl w x B C s fuel E U L.
    destruct (cut_start x C) as (_ & c & r & -> & _).
    rewrite app_length in L. simpl in L. destruct fuel as [|f]; [lia|].
    rewrite parse_expr_S, peek_eq, (cut_hangs id s bl w (c :: r)); auto; congruence.
  - intros bl w mid B D IH s fuel E U L.
    destruct (tok_make s bl w ["("%char] TLParen ["("%char] mid) as (tok & s2 & T & R & K & V & W); auto.
    { constructor. }
    rewrite app_length in L. simpl in L. destruct fuel as [|f]; [lia|]. rewrite <- E in U.
    rewrite parse_expr_S, (peek_tok _ _ _ U T). cbn [bind]. rewrite K. cbn [kind_of].
    rewrite (tok_complete _ _ _ _ U T). cbn [bind]. rewrite K. cbn [kind_of].
    destruct (tok_utf8 _ _ _ _ U T) as [U2 _]. rewrite R in U2.
    destruct (IH s2 f R U2 ltac:(lia)) as [-> _]. reflexivity.
  - intros bl w t mid B I ST D IH s fuel E U L.
    destruct (tok_make s bl w (":"%char :: t) TKeyword t mid) as (tok & s2 & T & R & K & V & W); auto.
    { constructor; auto. }
    rewrite app_length in L. simpl in L. rewrite app_length in L.
    destruct fuel as [|f]; [lia|]. rewrite <- E in U.
    rewrite parse_expr_S, (peek_tok _ _ _ U T). cbn [bind]. rewrite K. cbn [kind_of].
    rewrite (tok_complete _ _ _ _ U T). cbn [bind]. rewrite K. cbn [kind_of].
    destruct (tok_utf8 _ _ _ _ U T) as [U2 _].
    destruct (dangling_start _ D s2 R) as [NT P]; [rewrite <- R; auto|].
    rewrite eof_false by (rewrite R; auto). cbn [bind].
    destruct P as [P|(tok2 & s3 & P & _ & K2)]; rewrite P; cbn [bind]; auto.
    pose proof (IH s2 f R ltac:(rewrite <- R; auto) ltac:(lia)) as HH.
    destruct (t_kind tok2) eqn:EK; try congruence; rewrite HH; reflexivity.
  - intros x D IH s fuel E U L. destruct fuel as [|f]; [lia|].
    destruct (dangling_start _ D s E U) as [NT P].
    pose proof (IH s f E U ltac:(lia)) as HH.
    split.
    + rewrite parse_items_S. rewrite eof_false by (rewrite E; auto). cbn [bind].
      destruct P as [P|(tok2 & s3 & P & _ & K2)]; rewrite P; cbn [bind]; auto.
      destruct (t_kind tok2) eqn:EK; try congruence; rewrite HH; reflexivity.
    + cbn [Parser.parse_loop]. rewrite eof_false by (rewrite E; auto). cbn [bind]. rewrite HH. reflexivity.
  - intros x e mid HE D IH s fuel E U L. destruct fuel as [|f]; [lia|].
    destruct (proj1 grammar_g _ _ _ HE s E) as (n & s1 & G & SN & R1).
    rewrite <- E in U. destruct (proj1 g_utf8 _ _ _ G U) as [U1 LT].
    destruct (IH s1 f R1 ltac:(rewrite <- R1; auto) ltac:(rewrite <- R1; rewrite <- E in L; lia)) as [HI HL].
    pose proof (proj1 g_complete _ _ _ G U f ltac:(rewrite E; lia)) as PE.
    destruct (g_start _ _ _ G) as (tok2 & s3 & T2 & K2).
    split.
    + rewrite parse_items_S, (eof_tok _ _ _ U T2). cbn [bind].
      rewrite (peek_tok _ _ _ U T2). cbn [bind].
      destruct (t_kind tok2) eqn:EK; try congruence; rewrite PE; cbn [bind]; rewrite HI; reflexivity.
    + cbn [Parser.parse_loop]. rewrite (eof_tok _ _ _ U T2). cbn [bind]. rewrite PE. cbn [bind].
      rewrite HL. reflexivity.
Qed.

(** ** Main results *)

Theorem parse_returns : forall src, utf8 src ->
  match parse unescape id src with
  | Ok _ | Err _ => True
  | Hang => Dangling unescape src
  | Panic _ | OutOfFuel => False
  end.
Proof.
  intros src U. unfold parse.
  pose proof (parse_loop_good (parse_fuel src) (lex_new src) U) as G. simpl l_rest in G.
  unfold parse_fuel in *. specialize (G ltac:(lia)).
  destruct (parse_loop (2 * length src + 2) (lex_new src)); simpl in *; auto.
Qed.

Theorem parse_hang_iff : forall src, utf8 src ->
  parse unescape id src = Hang <-> Dangling unescape src.
Proof.
  intros src U. split; intros H.
  - pose proof (parse_returns src U) as R. rewrite H in R. exact R.
  - unfold parse. apply (proj2 dangling_hangs src H); auto. unfold parse_fuel. lia.
Qed.

Theorem parse_iff : forall src ns, utf8 src ->
  parse unescape id src = Ok ns <-> GProg (lex_new src) ns.
Proof.
  intros src ns U. unfold parse, parse_fuel. split.
  - intros E. pose proof (parse_loop_good (2 * length src + 2) (lex_new src) U) as G. simpl l_rest in G.
    specialize (G ltac:(lia)). rewrite E in G. exact G.
  - intros G. apply gprog_complete; auto. simpl. lia.
Qed.

Theorem parse_grammar : forall src ts, utf8 src ->
  (exists ns, parse unescape id src = Ok ns /\ map strip ns = ts) <-> Program unescape src ts.
Proof.
  intros src ts U. split.
  - intros (ns & E & <-). apply parse_iff in E; auto. apply gprog_grammar in E. exact E.
  - intros P. destruct (grammar_gprog _ _ P (lex_new src) eq_refl) as (ns & G & E).
    exists ns. split; auto. apply parse_iff; auto.
Qed.
End P.
