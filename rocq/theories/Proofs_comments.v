(** * Comments and whitespace do not affect the structure *)

From Coq Require Import List Ascii Bool Arith Lia.
From Verif Require Import Text Utf8 Res Lexer Ast Parser Spec_grammar Spec_tree
  Proofs_text Proofs_lexer Proofs_token Proofs_ast Proofs_parser.
Import ListNotations.

Lemma drop_blank_start : forall c r, token_start c -> drop_blank false (c :: r) = c :: r.
Proof.
  intros c r [H1 H2]. simpl.
  assert (ch c ";" = false) as -> by (apply ch_neq; auto).
  apply isw_false in H1. rewrite H1. reflexivity.
Qed.

Lemma blank_tok_unique : forall bl w txt k v r bl' w' txt' k' v' r',
  Blank bl w -> TokText txt k v r -> Blank bl' w' -> TokText txt' k' v' r' ->
  bl ++ txt ++ r = bl' ++ txt' ++ r' ->
  txt = txt' /\ k = k' /\ v = v' /\ r = r'.
Proof.
  intros bl w txt k v r bl' w' txt' k' v' r' B T B' T' E.
  assert (E2 : txt ++ r = txt' ++ r').
  { destruct (toktext_start _ _ _ _ T) as (c & t & Et & TS).
    destruct (toktext_start _ _ _ _ T') as (c' & t' & Et' & TS').
    pose proof (f_equal (drop_blank false) E) as D.
    rewrite (drop_blank_blank _ _ B), (drop_blank_blank _ _ B') in D.
    rewrite Et, Et' in D |- *. simpl app in D. rewrite !drop_blank_start in D; auto. }
  destruct (toktext_unique _ _ _ _ _ _ _ _ T T' E2) as (-> & -> & ->).
  apply app_inv_head in E2. auto.
Qed.

Lemma blank_tok_not_trailing : forall bl w txt k v r,
  Blank bl w -> TokText txt k v r -> ~ Trailing (bl ++ txt ++ r).
Proof.
  intros bl w txt k v r B T H. apply drop_blank_trailing in H.
  rewrite (drop_blank_blank _ _ B) in H.
  destruct (toktext_start _ _ _ _ T) as (c & t & -> & TS). simpl app in H.
  rewrite drop_blank_start in H; auto. discriminate.
Qed.

Lemma tokens_step : forall bl w txt k v r toks,
  Blank bl w -> TokText txt k v r -> Tokens (bl ++ txt ++ r) toks ->
  exists toks', toks = (k, v) :: toks' /\ Tokens r toks'.
Proof.
  intros bl w txt k v r toks B T H. inversion H; subst.
  - exfalso. eapply blank_tok_not_trailing; eauto.
  - destruct (blank_tok_unique _ _ _ _ _ _ _ _ _ _ _ _ B T H1 H2 (eq_sym H0)) as (-> & -> & -> & ->).
    eauto.
Qed.

Section C.
Variable unescape : bytes -> option bytes.

(** The grammar over token sequences. *)
Notation toks := (list (tkind * bytes)).
Inductive TExpr : toks -> sexp -> toks -> Prop :=
| te_sym : forall v r, TExpr ((TSymbol, v) :: r) (XSym (unbackslash v)) r
| te_num : forall v r, TExpr ((TNumber, v) :: r) (XNum (unbackslash v)) r
| te_str : forall v x r, unescape v = Some x -> TExpr ((TString, v) :: r) (XStr x) r
| te_attr : forall k r e r', TExpr r e r' -> TExpr ((TKeyword, k) :: r) (XAttr k e) r'
| te_list : forall v r es r', TItems r es r' -> TExpr ((TLParen, v) :: r) (XList es) r'
with TItems : toks -> list sexp -> toks -> Prop :=
| ti_end : forall v r, TItems ((TRParen, v) :: r) [] r
| ti_cons : forall r e r1 es r2, TExpr r e r1 -> TItems r1 es r2 -> TItems r (e :: es) r2.
Inductive TProg : toks -> list sexp -> Prop :=
| tpr_end : TProg [] []
| tpr_cons : forall r e r1 es, TExpr r e r1 -> TProg r1 es -> TProg r (e :: es).

Scheme TExpr_mind := Induction for TExpr Sort Prop
  with TItems_mind := Induction for TItems Sort Prop.
Combined Scheme T_mutind from TExpr_mind, TItems_mind.

Lemma str_text : forall t rest, DQ :: t ++ DQ :: rest = (DQ :: t ++ [DQ]) ++ rest.
Proof. intros. simpl. rewrite <- app_assoc. reflexivity. Qed.
Lemma triple_text : forall t rest, quote3 ++ t ++ quote3 ++ rest = (quote3 ++ t ++ quote3) ++ rest.
Proof. intros. rewrite <- !app_assoc. reflexivity. Qed.

Lemma expr_tokens :
  (forall x e rest, Expr unescape x e rest -> forall ts, Tokens x ts ->
     exists ts', TExpr ts (sshape e) ts' /\ Tokens rest ts') /\
  (forall x es ew rest, Items unescape x es ew rest -> forall ts, Tokens x ts ->
     exists ts', TItems ts (map sshape es) ts' /\ Tokens rest ts').
Proof.
  apply E_mutind.
  - intros bl w c t rest B SS I ST ts H.
    eapply tokens_step in H as (ts' & -> & H); [|eauto|constructor; eauto].
    exists ts'. split; auto. constructor.
  - intros bl w c t rest B SS I ST ts H.
    eapply tokens_step in H as (ts' & -> & H); [|eauto|apply tt_num; eauto].
    exists ts'. split; auto. constructor.
  - intros bl w t v rest B SB EV N ts H. rewrite str_text in H.
    eapply tokens_step in H as (ts' & -> & H); [|eauto|apply tt_str; eauto].
    exists ts'. split; auto. constructor. auto.
  - intros bl w t v rest B SB EV ts H. rewrite triple_text in H.
    eapply tokens_step in H as (ts' & -> & H); [|eauto|apply tt_triple; eauto].
    exists ts'. split; auto. constructor. auto.
  - intros bl w t mid v rest B I ST HE IH ts H.
    change (":"%char :: t ++ mid) with ((":"%char :: t) ++ mid) in H.
    eapply tokens_step in H as (ts' & -> & H); [|eauto|apply tt_kw; eauto].
    destruct (IH _ H) as (ts2 & T & R). exists ts2. split; auto. simpl. constructor; auto.
  - intros bl w mid es ew rest B HI IH ts H.
    change ("("%char :: mid) with (["("%char] ++ mid) in H.
    eapply tokens_step in H as (ts' & -> & H); [|eauto|apply tt_lparen].
    destruct (IH _ H) as (ts2 & T & R). exists ts2. split; auto. simpl. constructor; auto.
  - intros bl w rest B ts H.
    change (")"%char :: rest) with ([")"%char] ++ rest) in H.
    eapply tokens_step in H as (ts' & -> & H); [|eauto|apply tt_rparen].
    exists ts'. split; auto. constructor.
  - intros x e mid es ew rest HE IHe HI IHi ts H.
    destruct (IHe _ H) as (ts1 & T1 & R1). destruct (IHi _ R1) as (ts2 & T2 & R2).
    exists ts2. split; auto. simpl. econstructor; eauto.
Qed.

Lemma program_tokens : forall x es, Program unescape x es -> forall ts, Tokens x ts ->
  TProg ts (map sshape es).
Proof.
  intros x es H. induction H as [t T|x e mid es HE HP IH]; intros ts HT.
  - inversion HT; subst; [constructor|]. exfalso. eapply blank_tok_not_trailing; eauto.
  - destruct (proj1 expr_tokens _ _ _ HE _ HT) as (ts' & T & R). simpl. econstructor; eauto.
Qed.

Lemma tokens_inv : forall x k v ts, Tokens x ((k, v) :: ts) ->
  exists bl w txt rest, x = bl ++ txt ++ rest /\ Blank bl w /\ TokText txt k v rest /\ Tokens rest ts.
Proof. intros x k v ts H. inversion H; subst. eauto 10. Qed.

Lemma tokens_expr :
  (forall ts e ts', TExpr ts e ts' -> forall x, Tokens x ts ->
     exists t rest, Expr unescape x t rest /\ sshape t = e /\ Tokens rest ts') /\
  (forall ts es ts', TItems ts es ts' -> forall x, Tokens x ts ->
     exists t ew rest, Items unescape x t ew rest /\ map sshape t = es /\ Tokens rest ts').
Proof.
  apply T_mutind.
  - intros v r x H. apply tokens_inv in H as (bl & w & txt & rest & -> & B & T & R).
    inversion T; subst. eexists _, rest. split; [constructor; eauto|]. auto.
  - intros v r x H. apply tokens_inv in H as (bl & w & txt & rest & -> & B & T & R).
    inversion T; subst. eexists _, rest. split; [apply e_num; eauto|]. auto.
  - intros v y r E x H. apply tokens_inv in H as (bl & w & txt & rest & -> & B & T & R).
    inversion T; subst.
    + rewrite <- str_text. eexists _, rest. split; [apply e_str; eauto|]. auto.
    + rewrite <- triple_text. eexists _, rest. split; [apply e_triple; eauto|]. auto.
  - intros k r e r' T IH x H. apply tokens_inv in H as (bl & w & txt & rest & -> & B & TT & R).
    inversion TT; subst. destruct (IH _ R) as (t & rest2 & E & S & R2).
    eexists _, rest2. split; [simpl; apply e_attr; eauto|]. simpl. rewrite S. auto.
  - intros v r es r' T IH x H. apply tokens_inv in H as (bl & w & txt & rest & -> & B & TT & R).
    inversion TT; subst. destruct (IH _ R) as (t & ew & rest2 & E & S & R2).
    eexists _, rest2. split; [simpl; eapply e_list; eauto|]. simpl. rewrite S. auto.
  - intros v r x H. apply tokens_inv in H as (bl & w & txt & rest & -> & B & TT & R).
    inversion TT; subst. eexists [], w, rest. split; [simpl; apply i_end; auto|]. auto.
  - intros r e r1 es r2 T1 IH1 T2 IH2 x H.
    destruct (IH1 _ H) as (t & rest & E & S & R). destruct (IH2 _ R) as (ts & ew & rest2 & E2 & S2 & R2).
    exists (t :: ts), ew, rest2. split; [econstructor; eauto|]. simpl. rewrite S, S2. auto.
Qed.

Lemma tokens_program : forall ts es, TProg ts es -> forall x, Tokens x ts ->
  exists t, Program unescape x t /\ map sshape t = es.
Proof.
  intros ts es H. induction H as [|r e r1 es HE HP IH]; intros x HT.
  - inversion HT; subst. exists []. split; auto. constructor; auto.
  - destruct (proj1 tokens_expr _ _ _ HE _ HT) as (t & rest & E & S & R).
    destruct (IH _ R) as (ts & P & SS). exists (t :: ts). split; [econstructor; eauto|].
    simpl. congruence.
Qed.
End C.

Lemma sshape_strip : forall n, sshape (strip n) = shape n.
Proof.
  induction n using node_ind'; simpl; auto.
  - f_equal. rewrite map_map. apply map_ext_Forall; auto.
  - f_equal; auto.
Qed.
Lemma sshape_strips : forall ns, map sshape (map strip ns) = map shape ns.
Proof. intros. rewrite map_map. apply map_ext. apply sshape_strip. Qed.

Theorem same_tokens_same_shape : forall unescape id1 id2 src1 src2 ts t1,
  utf8 src1 -> utf8 src2 -> Tokens src1 ts -> Tokens src2 ts ->
  parse unescape id1 src1 = Ok t1 ->
  exists t2, parse unescape id2 src2 = Ok t2 /\ map shape t2 = map shape t1.
Proof.
  intros unescape id1 id2 src1 src2 ts t1 U1 U2 T1 T2 P.
  assert (PG : Program unescape src1 (map strip t1)).
  { apply (parse_grammar unescape id1); auto. eauto. }
  pose proof (program_tokens _ _ _ PG _ T1) as TP.
  destruct (tokens_program _ _ _ TP _ T2) as (t & PG2 & S).
  apply (parse_grammar unescape id2) in PG2 as (t2 & E & ST); auto.
  exists t2. split; auto. rewrite <- sshape_strips, ST, S, sshape_strips. reflexivity.
Qed.

(** Replacing one separating run of blanks. *)
Definition blank_headed (bl : bytes) : Prop := exists c r, bl = c :: r /\ blank_char c.

Lemma stops_swap : forall txt k v bl bl' post,
  blank_headed bl -> blank_headed bl' ->
  TokText txt k v (bl ++ post) -> TokText txt k v (bl' ++ post).
Proof.
  intros txt k v bl bl' post (c & r & -> & Bc) (c' & r' & -> & Bc') H.
  assert (ST : stops ((c' :: r') ++ post)) by (simpl; left; auto).
  inversion H; subst; try (constructor; auto; fail).
  apply tt_str; auto. intros (-> & r0 & E). simpl in E. inversion E; subst.
  destruct Bc' as [|[|[|]]]; discriminate.
Qed.

Lemma prefix_swap : forall pre toks bl bl' post,
  TokenPrefix (pre ++ bl ++ post) toks (bl ++ post) ->
  blank_headed bl -> blank_headed bl' ->
  TokenPrefix (pre ++ bl' ++ post) toks (bl' ++ post).
Proof.
  intros pre toks bl bl' post H. remember (pre ++ bl ++ post) as x. remember (bl ++ post) as r.
  revert pre Heqx. induction H; intros pre Heqx Hb Hb'; subst.
  - assert (pre = []) as ->.
    { destruct pre; auto. apply (f_equal (@length _)) in Heqx. rewrite !app_length in Heqx. simpl in Heqx. lia. }
    constructor.
  - assert (SUF : exists pre', mid = pre' ++ bl ++ post).
    { clear - H1. remember (bl ++ post) as r. induction H1; subst; eauto.
      - exists []. reflexivity.
      - destruct (IHTokenPrefix eq_refl) as [p ->].
        exists (bl0 ++ txt ++ p). rewrite <- !app_assoc. reflexivity. }
    destruct SUF as [pre' ->].
    assert (pre = bl0 ++ txt ++ pre') as ->.
    { rewrite 2!app_assoc in Heqx. apply app_inv_tail in Heqx. rewrite <- Heqx, <- app_assoc. reflexivity. }
    rewrite <- !app_assoc. econstructor; eauto.
    destruct pre' as [|c pre'].
    + simpl in *. apply (stops_swap _ _ _ bl); auto.
    + simpl in *. inversion H0; subst; try (constructor; auto; fail).
      apply tt_str; auto. intros (-> & r0 & E). inversion E; subst. apply H3. split; auto. eexists; reflexivity.
Qed.

Lemma prefix_tokens : forall src toks rest more, TokenPrefix src toks rest -> Tokens rest more ->
  Tokens src (toks ++ more).
Proof. intros src toks rest more H HT. induction H; simpl; auto. econstructor; eauto. Qed.

Lemma blank_app : forall x w y w', Blank x w -> Blank y w' -> exists w'', Blank (x ++ y) w''.
Proof.
  intros x w y w' Hx Hy. induction Hy as [w' F|t w0 body w' Ht IH N F].
  - inversion Hx; subst.
    + eexists. apply blank_ws. apply Forall_app; eauto.
    + eexists. rewrite <- app_assoc. simpl. rewrite <- app_assoc. simpl. eapply blank_comment; eauto. apply Forall_app; auto.
  - destruct IH as [w'' IH]. eexists. rewrite app_assoc. eapply blank_comment; eauto.
Qed.

(** Everything that follows a run of blanks can be read the same way after
    another run. *)
Lemma tokens_swap_front : forall bl w bl' w' post ts, Blank bl w -> Blank bl' w' ->
  Tokens (bl ++ post) ts -> Tokens (bl' ++ post) ts.
Proof.
  assert (SPLIT : forall bl w bl2 w2 txt k v r post, Blank bl w -> Blank bl2 w2 -> TokText txt k v r ->
     bl ++ post = bl2 ++ txt ++ r -> exists bl3 w3, Blank bl3 w3 /\ post = bl3 ++ txt ++ r).
  { intros bl w bl2 w2 txt k v r post B B2 T E.
    destruct (toktext_start _ _ _ _ T) as (c & t & Et & TS).
    pose proof (f_equal (drop_blank false) E) as D.
    rewrite (drop_blank_blank _ _ B), (drop_blank_blank _ _ B2) in D.
    rewrite Et in D. simpl app in D. rewrite drop_blank_start in D; auto.
    destruct (consume_whitespace (lex_new post)) as [w3 s3] eqn:EW.
    destruct (cw_sound _ _ _ EW) as [C1 _].
    assert (R3 : l_rest s3 = c :: t ++ r).
    { rewrite <- D. change post with (l_rest (lex_new post)) at 1.
      unfold consume_whitespace in EW. rewrite <- (cw_loop_rest _ (l_line (lex_new post)) (l_off (lex_new post)) (l_col (lex_new post)) false []).
      rewrite EW. reflexivity. }
    destruct (C1 _ _ R3) as (_ & bl3 & B3 & A3).
    exists bl3, w3. split; auto. destruct A3 as (A3 & _). simpl in A3. rewrite A3, R3, Et. reflexivity. }
  intros bl w bl' w' post ts B B' H. inversion H as [t T E|bl2 w2 txt k v r toks B2 T TS E]; subst.
  - constructor. apply drop_blank_nil. rewrite (drop_blank_blank _ _ B').
    apply drop_blank_nil in T. rewrite (drop_blank_blank _ _ B) in T. exact T.
  - destruct (SPLIT _ _ _ _ _ _ _ _ _ B B2 T (eq_sym E)) as (bl3 & w3 & B3 & ->).
    destruct (blank_app _ _ _ _ B' B3) as [w4 B4]. rewrite app_assoc. econstructor; eauto.
Qed.

(** Every successfully parsed source has a token sequence. *)
Lemma expr_has_tokens : forall unescape,
  (forall x e rest, Expr unescape x e rest -> exists ts, TokenPrefix x ts rest) /\
  (forall x es ew rest, Items unescape x es ew rest -> exists ts, TokenPrefix x ts rest).
Proof.
  intros unescape. apply E_mutind.
  - intros bl w c t rest B SS I ST. exists [(TSymbol, c :: t)]. econstructor; eauto. constructor; auto. constructor.
  - intros bl w c t rest B SS I ST. exists [(TNumber, c :: t)]. econstructor; eauto. apply tt_num; auto. constructor.
  - intros bl w t v rest B SB EV N. exists [(TString, t)]. rewrite str_text. econstructor; eauto. apply tt_str; auto. constructor.
  - intros bl w t v rest B SB EV. exists [(TString, t)]. rewrite triple_text. econstructor; eauto. apply tt_triple; auto. constructor.
  - intros bl w t mid v rest B I ST HE [ts IH]. exists ((TKeyword, t) :: ts).
    change (":"%char :: t ++ mid) with ((":"%char :: t) ++ mid). econstructor; eauto. constructor; auto.
  - intros bl w mid es ew rest B HI [ts IH]. exists ((TLParen, ["("%char]) :: ts).
    change ("("%char :: mid) with (["("%char] ++ mid). econstructor; eauto. constructor; auto.
  - intros bl w rest B. exists [(TRParen, [")"%char])].
    change (")"%char :: rest) with ([")"%char] ++ rest). econstructor; eauto. constructor; auto. constructor.
  - intros x e mid es ew rest HE [t1 H1] HI [t2 H2]. exists (t1 ++ t2).
    clear HE HI. induction H1; simpl; auto. econstructor; eauto.
Qed.

Lemma program_has_tokens : forall unescape x es, Program unescape x es -> exists ts, Tokens x ts.
Proof.
  intros unescape x es H. induction H as [t T|x e mid es HE HP [ts IH]].
  - exists []. apply ts_end; auto.
  - destruct (proj1 (expr_has_tokens unescape) _ _ _ HE) as [t1 H1].
    exists (t1 ++ ts). eapply prefix_tokens; eauto.
Qed.

Lemma prefix_cut : forall src toks rest, TokenPrefix src toks rest -> forall ts, Tokens src ts ->
  exists more, ts = toks ++ more /\ Tokens rest more.
Proof.
  intros src toks rest H. induction H; intros ts HT.
  - exists ts. auto.
  - eapply tokens_step in HT as (ts' & -> & HT); eauto.
    destruct (IHTokenPrefix _ HT) as (more & -> & R). exists more. auto.
Qed.

Theorem replace_blank : forall unescape id1 id2 pre bl w bl' w' post toks t1,
  utf8 (pre ++ bl ++ post) -> utf8 (pre ++ bl' ++ post) ->
  TokenPrefix (pre ++ bl ++ post) toks (bl ++ post) ->
  Blank bl w -> Blank bl' w' -> blank_headed bl -> blank_headed bl' ->
  parse unescape id1 (pre ++ bl ++ post) = Ok t1 ->
  exists t2, parse unescape id2 (pre ++ bl' ++ post) = Ok t2 /\ map shape t2 = map shape t1.
Proof.
  intros unescape id1 id2 pre bl w bl' w' post toks t1 U1 U2 TP B B' H H' P.
  assert (PG : Program unescape (pre ++ bl ++ post) (map strip t1)).
  { apply (parse_grammar unescape id1); auto. eauto. }
  destruct (program_has_tokens _ _ _ PG) as [ts HT].
  destruct (prefix_cut _ _ _ TP _ HT) as (more & -> & R).
  eapply same_tokens_same_shape; [exact U1|exact U2|exact HT| |exact P].
  eapply prefix_tokens; [apply (prefix_swap _ _ bl); auto|]. apply (tokens_swap_front bl w _ w'); auto.
Qed.
