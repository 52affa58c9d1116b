(** * Trees have the positions of their tokens *)

From Coq Require Import List Ascii Bool Arith Lia.
From Verif Require Import Text Utf8 Res Lexer Ast Parser Spec_grammar Spec_tree Spec_syntax Spec_place
  Proofs_text Proofs_lexer Proofs_token Proofs_ast Proofs_parser Proofs_syntax.
Import ListNotations.

Section P.
Variable unescape : bytes -> option bytes.
Variable id : nat.

Notation Tok := (Tok id).
Notation Next := (Next id).
Notation Tree := (Tree unescape id).
Notation Forest := (Forest unescape id).
Notation Fault := (Fault unescape id).
Notation consume := (consume id).
Notation peek := (peek id).
Notation parse_expr := (Parser.parse_expr unescape id).
Notation parse_items := (Parser.parse_items unescape id).
Notation parse_loop := (parse_loop unescape id).
Notation GExpr := (GExpr unescape id).
Notation GItems := (GItems unescape id).

(** The state of the lexer at a place. *)
Definition lex_of (c : cursor) : lex :=
  Lex (1 + newlines (behind c) + surplus c) (length (behind c)) (column (behind c)) (ahead c).

Lemma column_app : forall x y, column (x ++ y) = col_after (column x) y.
Proof. intros. unfold column, col_after. apply fold_left_app. Qed.

Local Opaque newlines column.

Lemma next_tok : forall c k v w st c', Next c k v w st c' ->
  Tok (lex_of c) (Token (kind_of k) v w st) (lex_of c').
Proof.
  intros c k v w st c' H. destruct H as [before extra bl w txt k v rest B T].
  exists bl, w, (lex_of (Cursor (before ++ bl) extra (txt ++ rest))), txt, k, v.
  split; [exact B|]. split; [|split; [|split; [exact T|]]].
  - repeat split; cbn.
    + apply app_length.
    + apply column_app.
    + rewrite newlines_app. lia.
  - repeat split; cbn.
    + rewrite !app_length. lia.
    + rewrite app_assoc. apply column_app.
    + rewrite !newlines_app. lia.
  - unfold mark. cbn. f_equal. f_equal. rewrite !newlines_app. destruct k; cbn; rewrite ?newlines_app; lia.
Qed.

Lemma tok_next : forall c tok s2, Tok (lex_of c) tok s2 ->
  exists k c', t_kind tok = kind_of k /\ s2 = lex_of c' /\ Next c k (t_value tok) (t_ws tok) (t_site tok) c'.
Proof.
  intros [before extra rest] tok s2 (bl & w & s1 & txt & k & v & B & A1 & A2 & T & ->).
  destruct s1 as [l1 o1 c1 r1], s2 as [l2 o2 c2 r2].
  destruct A1 as (R1 & O1 & C1 & L1), A2 as (R2 & O2 & C2 & L2). cbn in *. subst.
  exists k, (Cursor (before ++ bl ++ txt) (extra + newlines txt) r2).
  split; [reflexivity|]. split.
  - unfold lex_of. cbn. f_equal.
    + rewrite !newlines_app. lia.
    + rewrite !app_length. lia.
    + rewrite column_app, col_after_app. reflexivity.
  - cbn [t_value t_ws t_site].
    match goal with |- Spec_place.Next _ _ _ _ _ ?st _ =>
      replace st with (mark id (before ++ bl) (extra + match k with TString => 0 | _ => 2 * newlines txt end) (length txt)) end.
    { apply next; auto. }
    unfold mark. rewrite app_length, column_app, newlines_app. f_equal. destruct k; cbn; lia.
Qed.

Lemma tree_ind2 : forall (P : cursor -> node -> cursor -> Prop) (Q : cursor -> list node -> cursor -> Prop),
  (forall c v w st c', Next c TSymbol v w st c' -> P c (Sym (Atom (unbackslash v) st w)) c') ->
  (forall c v w st c', Next c TNumber v w st c' -> P c (Num (Atom (unbackslash v) st w)) c') ->
  (forall c v u w st c', Next c TString v w st c' -> unescape v = Some u -> P c (Str (Atom u st w)) c') ->
  (forall c k w st c1 n c2, Next c TKeyword k w st c1 -> Tree c1 n c2 -> P c1 n c2 -> P c (Attr k n st w) c2) ->
  (forall c p w st c1 ns c2 q ew es c3, Next c TLParen p w st c1 -> Forest c1 ns c2 -> Q c1 ns c2 ->
     Next c2 TRParen q ew es c3 -> P c (Lst ns st ew es w) c3) ->
  (forall c, Q c [] c) ->
  (forall c n c1 ns c2, Tree c n c1 -> P c n c1 -> Forest c1 ns c2 -> Q c1 ns c2 -> Q c (n :: ns) c2) ->
  (forall c n c', Tree c n c' -> P c n c') /\ (forall c ns c', Forest c ns c' -> Q c ns c').
Proof.
  intros P Q H1 H2 H3 H4 H5 H6 H7.
  assert (T : forall c n c', Tree c n c' -> P c n c').
  { fix IH 4. intros c n c' H. destruct H as [| | |c k w st c1 n c2 N T|c p w st c1 ns c2 q ew es c3 N F N'].
    - eauto.
    - eauto.
    - eauto.
    - eauto.
    - eapply H5; eauto. clear N N'. induction F as [c0|c0 n0 c4 ns0 c5 T0 F0 IHF]; eauto. }
  split; auto. intros c ns c' F. induction F; eauto.
Qed.

(** ** Trees and the annotated grammar *)

Lemma forest_items : forall c ns c2, (Forest c ns c2) ->
  (forall c n c', Tree c n c' -> GExpr (lex_of c) n (lex_of c')) ->
  forall q ew es c3, Next c2 TRParen q ew es c3 ->
  GItems (lex_of c) ns (Token KRParen q ew es) (lex_of c3).
Proof.
  intros c ns c2 F H. induction F; intros q ew es c3 N.
  - apply gi_end; [exact (next_tok _ _ _ _ _ _ N)|reflexivity].
  - eapply gi_cons; eauto.
Qed.

Lemma tree_g : forall c n c', Tree c n c' -> GExpr (lex_of c) n (lex_of c').
Proof.
  refine (proj1 (tree_ind2 (fun c n c' => GExpr (lex_of c) n (lex_of c'))
    (fun c ns c2 => forall q ew es c3, Next c2 TRParen q ew es c3 ->
       GItems (lex_of c) ns (Token KRParen q ew es) (lex_of c3)) _ _ _ _ _ _ _)).
  - intros c v w st c' N. exact (g_sym unescape id _ _ _ (next_tok _ _ _ _ _ _ N) eq_refl).
  - intros c v w st c' N. exact (g_num unescape id _ _ _ (next_tok _ _ _ _ _ _ N) eq_refl).
  - intros c v u w st c' N E. exact (g_str unescape id _ _ _ u (next_tok _ _ _ _ _ _ N) eq_refl E).
  - intros c k w st c1 n c2 N _ G. exact (g_attr unescape id _ _ _ n _ (next_tok _ _ _ _ _ _ N) eq_refl G).
  - intros c p w st c1 ns c2 q ew es c3 N _ G N'.
    exact (g_list unescape id _ _ _ ns _ _ (next_tok _ _ _ _ _ _ N) eq_refl (G _ _ _ _ N')).
  - intros c q ew es c3 N. apply gi_end; [exact (next_tok _ _ _ _ _ _ N)|reflexivity].
  - intros c n c1 ns c2 _ G _ GI q ew es c3 N. eapply gi_cons; eauto.
Qed.

Lemma g_tree :
  (forall s n s', GExpr s n s' -> forall c, s = lex_of c -> exists c', s' = lex_of c' /\ Tree c n c') /\
  (forall s es rp s', GItems s es rp s' -> forall c, s = lex_of c ->
     exists c2 c3, s' = lex_of c3 /\ Forest c es c2 /\ Next c2 TRParen (t_value rp) (t_ws rp) (t_site rp) c3).
Proof.
  apply G_mutind.
  - intros s tok s2 T K c ->. destruct (tok_next _ _ _ T) as (k & c' & K' & -> & N).
    rewrite K in K'. destruct k; try discriminate. exists c'. split; [reflexivity|]. eapply t_symbol; exact N.
  - intros s tok s2 T K c ->. destruct (tok_next _ _ _ T) as (k & c' & K' & -> & N).
    rewrite K in K'. destruct k; try discriminate. exists c'. split; [reflexivity|]. eapply t_number; exact N.
  - intros s tok s2 v T K E c ->. destruct (tok_next _ _ _ T) as (k & c' & K' & -> & N).
    rewrite K in K'. destruct k; try discriminate. exists c'. split; [reflexivity|]. eapply t_string; eauto.
  - intros s tok s1 v s2 T K G IH c ->. destruct (tok_next _ _ _ T) as (k & c1 & K' & -> & N).
    rewrite K in K'. destruct k; try discriminate. destruct (IH c1 eq_refl) as (c2 & -> & T2).
    exists c2. split; [reflexivity|]. eapply t_attribute; eauto.
  - intros s tok s1 es rp s2 T K G IH c ->. destruct (tok_next _ _ _ T) as (k & c1 & K' & -> & N).
    rewrite K in K'. destruct k; try discriminate. destruct (IH c1 eq_refl) as (c2 & c3 & -> & F & N3).
    exists c3. split; [reflexivity|]. eapply t_list; eauto.
  - intros s rp s2 T K c ->. destruct (tok_next _ _ _ T) as (k & c1 & K' & -> & N).
    rewrite K in K'. destruct k; try discriminate. exists c, c1. split; [reflexivity|]. split; [constructor|exact N].
  - intros s e s1 es rp s2 G IH GI IHI c ->. destruct (IH c eq_refl) as (c1 & -> & T1).
    destruct (IHI c1 eq_refl) as (c2 & c3 & -> & F & N). exists c2, c3. split; [reflexivity|]. split; auto.
    econstructor; eauto.
Qed.

Lemma gprog_forest : forall s ns, GProg unescape id s ns -> forall c, s = lex_of c ->
  exists c', Forest c ns c' /\ Trailing (ahead c').
Proof.
  intros s ns H. induction H as [s T|s e s1 es G GP IH]; intros c ->.
  - exists c. split; [constructor|exact T].
  - destruct (proj1 g_tree _ _ _ G c eq_refl) as (c1 & -> & T). destruct (IH c1 eq_refl) as (c' & F & TR).
    exists c'. split; auto. econstructor; eauto.
Qed.

Lemma forest_gprog : forall c ns c', Forest c ns c' -> Trailing (ahead c') -> GProg unescape id (lex_of c) ns.
Proof.
  intros c ns c' F TR. induction F; [apply gp_end; exact TR|].
  eapply gp_cons; [apply tree_g; eassumption|auto].
Qed.

(** ** Where the parser fails there is a fault *)

Lemma closing_tok : forall c tok s2, utf8 (ahead c) -> Tok (lex_of c) tok s2 ->
  (t_kind tok = KRParen <-> closing id c).
Proof.
  intros c tok s2 U T. split.
  - intros K. destruct (tok_next _ _ _ T) as (k & c' & K' & _ & N). rewrite K in K'. destruct k; try discriminate.
    exists (t_value tok), (t_ws tok), (t_site tok), c'. exact N.
  - intros (v & w & st & c' & N). pose proof (next_tok _ _ _ _ _ _ N) as T'.
    destruct (tok_unique id (lex_of c) _ _ _ _ U T T') as (-> & _). reflexivity.
Qed.

Lemma peek_closing : forall c, utf8 (ahead c) -> closing id c -> exists tok, peek (lex_of c) = Ok (tok, lex_of c) /\ t_kind tok = KRParen.
Proof.
  intros c U (v & w & st & c' & N). pose proof (next_tok _ _ _ _ _ _ N) as T.
  eexists. split; [apply (peek_tok id (lex_of c) _ _ U T)|reflexivity].
Qed.

Lemma string_fault : forall c e st, utf8 (ahead c) -> peek (lex_of c) = Err (EErr e st) -> Fault c e st.
Proof.
  intros c e st U P. rewrite peek_eq in P. pose proof (consume_spec id (lex_of c) U) as C.
  destruct (consume (lex_of c)) as [[tok s2]|e'| | |]; try discriminate. injection P as ->.
  inversion C as [| | |bl w s1 ek n B A (r & R) NT CASE LE Q1]; subst. clear C.
  destruct c as [before extra rest]. destruct s1 as [l1 o1 c1 r1].
  destruct A as (A1 & A2 & A3 & A4). cbn in *. subst.
  assert (M : forall n, Site id (S (newlines before + extra + (newlines bl + 0))) (length before + length bl) (col_after (column before) bl) n
     = mark id (before ++ bl) extra n).
  { intros m. unfold mark. rewrite app_length, column_app, newlines_app. f_equal. lia. }
  rewrite M. destruct CASE as [(-> & -> & r' & R)|(-> & -> & NR)].
  - change (DQ :: r) with ([DQ] ++ r) in R. cbn [app] in R. rewrite R in *.
    apply (fault_triple unescape id before extra bl w r' B).
    intros t rest TB ->. apply (NT (quote3 ++ t ++ quote3) TString t rest); [constructor; auto|].
    rewrite <- !app_assoc. reflexivity.
  - apply (fault_string unescape id before extra bl w r B).
    + intros r' Q. apply NR. exists r'. exact Q.
    + intros t rest SB ->.
      apply (NT (DQ :: t ++ [DQ]) TString t rest).
      * apply tt_str; auto. intros (-> & r' & Q). subst. apply NR. exists r'. reflexivity.
      * cbn. rewrite <- app_assoc. reflexivity.
Qed.

Definition bad (c : cursor) {A} (r : res A) : Prop :=
  match r with Err (EErr e st) => Fault c e st | _ => True end.

Lemma bad_bind : forall c A B (r : res A) (f : A -> res B),
  bad c r -> (forall a, r = Ok a -> bad c (f a)) -> bad c (bind r f).
Proof. intros c A B [a|[e st]| | |] f H K; cbn; auto. Qed.

Lemma items_end : forall fuel c es s', utf8 (ahead c) -> 2 * length (ahead c) < fuel ->
  parse_items fuel (lex_of c) = Ok (es, None, s') -> exists c', Forest c es c' /\ Trailing (ahead c').
Proof.
  induction fuel as [|f IH]; intros c es s' U L H; [lia|]. rewrite parse_items_S in H.
  destruct (eof_spec (lex_of c)) as (x & Ex & Ix). rewrite Ex in H. cbn [bind] in H. destruct x.
  - injection H as <- <-. exists c. split; [constructor|]. apply Ix. reflexivity.
  - assert (NT : ~ Trailing (ahead c)). { intros Q. apply Ix in Q. discriminate. }
    destruct (peek (lex_of c)) as [[tok s0]| | | |] eqn:P; try discriminate. cbn [bind] in H.
    destruct (peek_ok id (lex_of c) _ _ U P) as (-> & s2 & T).
    assert (R : (let* '(e, s0) := parse_expr f (lex_of c) in let* '(es, rp, s1) := parse_items f s0 in Ok (e :: es, rp, s1))
                = Ok (es, None, s') -> exists c', Forest c es c' /\ Trailing (ahead c')).
    { intros R. pose proof (proj1 (parse_good unescape id f) (lex_of c) U NT ltac:(cbn; lia)) as G.
      destruct (parse_expr f (lex_of c)) as [[e s1]| | | |]; try discriminate. cbn [bind] in R. cbn in G.
      destruct G as (G & U1 & L1).
      destruct (proj1 g_tree _ _ _ G c eq_refl) as (c1 & -> & T1).
      destruct (parse_items f (lex_of c1)) as [[[es' rp] s3]| | | |] eqn:Q; try discriminate. cbn [bind] in R.
      injection R as <- -> ->. cbn in U1, L1.
      destruct (IH c1 es' s' U1 ltac:(lia) Q) as (c' & F & TR). exists c'. split; auto. econstructor; eauto. }
    destruct (t_kind tok); try (apply R; exact H).
    rewrite (tok_complete id (lex_of c) _ _ U T) in H. discriminate.
Qed.

(** A fault behind some trees. *)
Definition later (c : cursor) {A} (r : res A) : Prop :=
  match r with
  | Err (EErr e st) => exists ns c', Forest c ns c' /\ ~ closing id c' /\ Fault c' e st
  | _ => True
  end.

Lemma parse_bad : forall fuel,
  (forall c, utf8 (ahead c) -> ~ Trailing (ahead c) -> 2 * length (ahead c) <= fuel -> bad c (parse_expr fuel (lex_of c))) /\
  (forall c, utf8 (ahead c) -> 2 * length (ahead c) < fuel -> later c (parse_items fuel (lex_of c))).
Proof.
  induction fuel as [|f [IHe IHi]]; split; try (intros; exact I).
  - intros c U NT L. rewrite parse_expr_S. apply bad_bind.
    { destruct (peek (lex_of c)) as [|[e st]| | |] eqn:P; cbn; auto. apply string_fault; auto. }
    intros [tok s0] P. destruct (peek_ok id (lex_of c) _ _ U P) as (-> & s2 & T).
    destruct (tok_utf8 id (lex_of c) _ _ U T) as [U2 LT].
    destruct (tok_next _ _ _ T) as (k & c1 & K & -> & N). cbn in U2, LT. rewrite K.
    assert (AT : kind_of k <> KLParen -> kind_of k <> KRParen -> kind_of k <> KKeyword ->
                 bad c (Parser.parse_atomic unescape id (lex_of c))).
    { intros K1 K2 K3. unfold Parser.parse_atomic. rewrite (tok_complete id (lex_of c) _ _ U T). cbn [bind]. rewrite K.
      destruct k; cbn [kind_of] in *; try congruence; cbn [bind bad]; auto.
      destruct (unescape (t_value tok)) eqn:E; cbn [bind bad]; auto. eapply fault_escape; eauto. }
    destruct k; cbn [kind_of] in *.
    + rewrite (tok_complete id (lex_of c) _ _ U T). cbn [bind]. rewrite K.
      pose proof (IHi c1 U2 ltac:(lia)) as G.
      destruct (parse_items f (lex_of c1)) as [[[es rp] s3]|[e st]| | |] eqn:Q; cbn [bind bad later] in *; auto.
      * destruct rp as [rp|]; cbn [bad]; auto.
        destruct (items_end f c1 es s3 U2 ltac:(lia) Q) as (c' & F & TR). eapply fault_open; eauto.
      * destruct G as (ns & c' & F & NC & H). eapply fault_inside; eauto.
    + cbn [bad]. eapply fault_closing; eauto.
    + apply bad_bind; [apply AT; discriminate|]. intros [a s']; cbn; auto.
    + apply bad_bind; [apply AT; discriminate|]. intros [a s']; cbn; auto.
    + apply bad_bind; [apply AT; discriminate|]. intros [a s']; cbn; auto.
    + rewrite (tok_complete id (lex_of c) _ _ U T). cbn [bind]. rewrite K.
      destruct (eof_spec (lex_of c1)) as (x & Ex & Ix). rewrite Ex. cbn [bind]. destruct x.
      { cbn. eapply fault_no_value; eauto. left. apply Ix. reflexivity. }
      assert (NT2 : ~ Trailing (ahead c1)). { intros H. apply Ix in H. discriminate. }
      destruct (peek (lex_of c1)) as [[nxt s0]|[ek st]| | |] eqn:P2; cbn [bind bad]; auto.
      * destruct (peek_ok id (lex_of c1) _ _ U2 P2) as (-> & s3 & T3). assert (C3 := closing_tok _ _ _ U2 T3).
        pose proof (IHe c1 U2 NT2 ltac:(lia)) as G.
        destruct (t_kind nxt) eqn:KN;
          try (destruct (parse_expr f (lex_of c1)) as [[v s4]|[e st]| | |]; cbn [bind bad] in *; auto;
               eapply fault_value; eauto; intros CL; apply C3 in CL; discriminate).
        cbn. eapply fault_no_value; eauto. right. apply C3. reflexivity.
      * eapply fault_value; eauto; [|apply string_fault; auto].
        intros CL. destruct (peek_closing c1 U2 CL) as (tok' & P' & _). rewrite P' in P2. discriminate.
  - intros c U L. rewrite parse_items_S.
    destruct (eof_spec (lex_of c)) as (x & Ex & Ix). rewrite Ex. cbn [bind]. destruct x; [exact I|].
    assert (NT : ~ Trailing (ahead c)). { intros H. apply Ix in H. discriminate. }
    destruct (peek (lex_of c)) as [[tok s0]|[ek st]| | |] eqn:P; cbn [bind later]; auto.
    + destruct (peek_ok id (lex_of c) _ _ U P) as (-> & s2 & T). assert (C := closing_tok _ _ _ U T).
      assert (R : t_kind tok <> KRParen -> later c
       (let* '(e, s0) := parse_expr f (lex_of c) in let* '(es, rp, s1) := parse_items f s0 in Ok (e :: es, rp, s1))).
      { intros NK. pose proof (IHe c U NT ltac:(lia)) as B.
        pose proof (proj1 (parse_good unescape id f) (lex_of c) U NT ltac:(cbn; lia)) as G.
        destruct (parse_expr f (lex_of c)) as [[e s1]|[e st]| | |]; cbn [bind later] in *; auto.
        - destruct G as (G & U1 & L1). destruct (proj1 g_tree _ _ _ G c eq_refl) as (c1 & -> & T1). cbn in U1, L1.
          pose proof (IHi c1 U1 ltac:(lia)) as GI.
          destruct (parse_items f (lex_of c1)) as [[[es rp] s3]|[e' st]| | |]; cbn [bind later] in *; auto.
          destruct GI as (ns & c' & F & NC & H). exists (e :: ns), c'. split; auto. econstructor; eauto.
        - exists [], c. split; [constructor|]. split; auto. rewrite <- C. exact NK. }
      destruct (t_kind tok); try (apply R; discriminate).
      rewrite (tok_complete id (lex_of c) _ _ U T). exact I.
    + exists [], c. split; [constructor|]. split; [|apply string_fault; auto].
      intros CL. destruct (peek_closing c U CL) as (tok' & P' & _). rewrite P' in P. discriminate.
Qed.

Lemma loop_bad : forall fuel c e st, utf8 (ahead c) -> 2 * length (ahead c) < fuel ->
  parse_loop fuel (lex_of c) = Err (EErr e st) -> exists ns c', Forest c ns c' /\ Fault c' e st.
Proof.
  induction fuel as [|f IH]; intros c e st U L H; [lia|]. cbn [Parser.parse_loop] in H.
  destruct (eof_spec (lex_of c)) as (x & Ex & Ix). rewrite Ex in H. cbn [bind] in H. destruct x; [discriminate|].
  assert (NT : ~ Trailing (ahead c)). { intros Q. apply Ix in Q. discriminate. }
  pose proof (proj1 (parse_bad f) c U NT ltac:(lia)) as B.
  pose proof (proj1 (parse_good unescape id f) (lex_of c) U NT ltac:(cbn; lia)) as G.
  destruct (parse_expr f (lex_of c)) as [[n s1]|e'| | |]; cbn [bind] in H; try discriminate.
  - destruct G as (G & U1 & L1). destruct (proj1 g_tree _ _ _ G c eq_refl) as (c1 & -> & T1). cbn in U1, L1.
    destruct (parse_loop f (lex_of c1)) as [es|e'| | |] eqn:Q; cbn [bind] in H; try discriminate. injection H as ->.
    destruct (IH c1 e st U1 ltac:(lia) Q) as (ns & c' & F & FA). exists (n :: ns), c'. split; auto. econstructor; eauto.
  - injection H as ->. exists [], c. split; [constructor|exact B].
Qed.

(** ** Faults are reported *)

Lemma forest_utf8 : forall c ns c', Forest c ns c' -> utf8 (ahead c) ->
  utf8 (ahead c') /\ length (ahead c') <= length (ahead c).
Proof.
  intros c ns c' F. induction F as [c|c n c1 ns c2 T F IH]; intros U; [auto|].
  destruct (proj1 (g_utf8 unescape id) _ _ _ (tree_g _ _ _ T) U) as [U1 L1]. cbn in U1, L1.
  destruct (IH U1). split; auto. lia.
Qed.

Lemma open_peek : forall before extra bl w r, utf8 (bl ++ DQ :: r) -> Blank bl w -> NoToken (DQ :: r) ->
  ((forall r', DQ :: r <> quote3 ++ r') ->
     peek (lex_of (Cursor before extra (bl ++ DQ :: r))) = Err (EErr EUnclosedString (mark id (before ++ bl) extra 1))) /\
  ((exists r', DQ :: r = quote3 ++ r') ->
     peek (lex_of (Cursor before extra (bl ++ DQ :: r))) = Err (EErr EUnclosedTriple (mark id (before ++ bl) extra 3))).
Proof.
  intros before extra bl w r U B NT. set (s := lex_of (Cursor before extra (bl ++ DQ :: r))).
  assert (E : l_rest s = bl ++ DQ :: r) by reflexivity.
  assert (TS : token_start DQ). { split; [intros [|[|[|]]]; discriminate|discriminate]. }
  destruct (cw_complete bl w s DQ r B E TS) as [EW RM].
  pose proof (move_adv 1 bl s _ E) as A.
  assert (U1 : utf8 (l_rest (move 1 bl s))). { eapply utf8_blank_rest; [exact B|]. rewrite <- (proj1 A). exact U. }
  rewrite peek_eq, (consume_eq id _ _ _ EW).
  assert (M : forall n, Site id (l_line (move 1 bl s)) (l_off (move 1 bl s)) (l_col (move 1 bl s)) n = mark id (before ++ bl) extra n).
  { intros n. unfold mark, move, s. cbn. rewrite app_length, column_app, newlines_app. f_equal. lia. }
  destruct (body_sound id w _ DQ r U1 RM TS) as
    [(txt & k & v & s2 & EB & T & A2 & U2)|[(EB & HT)|(ek & n & EB & _ & C & _ & _)]].
  - exfalso. apply (NT _ _ _ _ T). rewrite <- (proj1 A2). auto.
  - exfalso. rewrite RM in HT. assert (HD : forall t, Ident t -> t ++ [BS] <> DQ :: r).
    { intros t I EQ. inversion I; subst; simpl in EQ; injection EQ as Q1 Q2; try discriminate.
      subst. destruct H as [H _]. apply H, delim_dq. }
    inversion HT as [t I EQ|t I EQ]. eapply HD; eauto.
  - rewrite EB, RM, M in *. split; intros Q.
    + destruct C as [(_ & _ & r' & C)|(-> & -> & _)]; [destruct (Q _ C)|]. reflexivity.
    + destruct C as [(-> & -> & _)|(_ & _ & C)]; [|destruct (C Q)]. reflexivity.
Qed.

(** What looking for a token gives where there is a fault. *)
Lemma fault_peek : forall c e st, Fault c e st -> utf8 (ahead c) ->
  peek (lex_of c) = Err (EErr e st) \/ exists tok s2, Tok (lex_of c) tok s2.
Proof.
  intros c e st H U. destruct H; try (right; do 2 eexists; eapply next_tok; eassumption); left.
  - apply (proj1 (open_peek before extra bl w r U H (notoken_string r H0 H1))). exact H0.
  - apply (proj2 (open_peek before extra bl w _ U H (notoken_triple r H0))). eexists. reflexivity.
Qed.

Lemma fault_not_trailing : forall c e st, Fault c e st -> utf8 (ahead c) -> ~ Trailing (ahead c).
Proof.
  intros c e st H U T. destruct (fault_peek _ _ _ H U) as [P|(tok & s2 & Q)].
  - rewrite peek_eq in P. destruct (consume_whitespace (lex_of c)) as [w s1] eqn:EW.
    pose proof (cw_trailing (lex_of c) T) as R. rewrite EW in R. cbn [snd] in R.
    rewrite (consume_eq id _ _ _ EW) in P. unfold consume_body, peek_char in P. rewrite R in P. discriminate.
  - eapply (tok_not_trailing id (lex_of c)); eauto.
Qed.

Lemma forest_open : forall c ns c', Forest c ns c' -> Trailing (ahead c') -> utf8 (ahead c) ->
  forall fuel, 2 * length (ahead c) < fuel -> parse_items fuel (lex_of c) = Ok (ns, None, lex_of c').
Proof.
  intros c ns c' F TR. induction F as [c|c n c1 ns c2 T F IH]; intros U fuel L; (destruct fuel as [|f]; [lia|]);
    rewrite parse_items_S.
  - destruct (eof_spec (lex_of c)) as (y & Ey & Iy). rewrite Ey. cbn [bind]. rewrite (proj2 Iy) by exact TR. reflexivity.
  - pose proof (tree_g _ _ _ T) as G. destruct (proj1 (g_utf8 unescape id) _ _ _ G U) as [U1 LT].
    pose proof (proj1 (g_complete unescape id) _ _ _ G U f ltac:(cbn; lia)) as PE.
    destruct (g_start _ _ _ _ _ G) as (tok2 & s3 & T2 & K2).
    rewrite (eof_tok id (lex_of c) _ _ U T2). cbn [bind]. rewrite (peek_tok id (lex_of c) _ _ U T2). cbn [bind]. cbn in U1, LT.
    destruct (t_kind tok2) eqn:EK; try congruence; rewrite PE; cbn [bind]; rewrite (IH TR U1 f) by lia; reflexivity.
Qed.

Lemma forest_fault : forall c ns c' e st, Forest c ns c' -> Fault c' e st -> ~ closing id c' -> 
  (forall fuel, utf8 (ahead c') -> 2 * length (ahead c') <= fuel -> parse_expr fuel (lex_of c') = Err (EErr e st)) ->
  utf8 (ahead c) -> forall fuel, 2 * length (ahead c) < fuel -> parse_items fuel (lex_of c) = Err (EErr e st).
Proof.
  intros c ns c' e st F FA NC H. induction F as [c|c n c1 ns c2 T F IH]; intros U fuel L; (destruct fuel as [|f]; [lia|]);
    rewrite parse_items_S.
  - rewrite eof_false by (eapply fault_not_trailing; eauto). cbn [bind].
    destruct (fault_peek _ _ _ FA U) as [P|(tok & s2 & T)]; [rewrite P; reflexivity|].
    rewrite (peek_tok id (lex_of c) _ _ U T). cbn [bind]. pose proof (closing_tok _ _ _ U T) as C.
    destruct (t_kind tok) eqn:K; try (rewrite (H f U) by lia; reflexivity). exfalso. apply NC, C. reflexivity.
  - pose proof (tree_g _ _ _ T) as G. destruct (proj1 (g_utf8 unescape id) _ _ _ G U) as [U1 LT].
    pose proof (proj1 (g_complete unescape id) _ _ _ G U f ltac:(cbn; lia)) as PE.
    destruct (g_start _ _ _ _ _ G) as (tok2 & s3 & T2 & K2).
    rewrite (eof_tok id (lex_of c) _ _ U T2). cbn [bind]. rewrite (peek_tok id (lex_of c) _ _ U T2). cbn [bind]. cbn in U1, LT.
    destruct (t_kind tok2) eqn:EK; try congruence; rewrite PE; cbn [bind]; rewrite (IH FA NC H U1 f) by lia; reflexivity.
Qed.

Lemma fault_reports : forall c e st, Fault c e st ->
  forall fuel, utf8 (ahead c) -> 2 * length (ahead c) <= fuel -> parse_expr fuel (lex_of c) = Err (EErr e st).
Proof.
  intros c e st H. induction H; intros fuel U L;
    try (pose proof (next_tok _ _ _ _ _ _ H) as T; destruct (tok_utf8 id (lex_of c) _ _ U T) as [U2 LT]; cbn in U2, LT);
    (destruct fuel as [|f]; [try lia; cbn in L; rewrite app_length in L; cbn in L; lia|]); rewrite parse_expr_S.
  - rewrite (peek_tok id (lex_of c) _ _ U T). reflexivity.
  - rewrite (proj1 (open_peek before extra bl w r U H (notoken_string r H0 H1)) H0). reflexivity.
  - change (quote3 ++ r) with (DQ :: DQ :: DQ :: r) in *.
    rewrite (proj2 (open_peek before extra bl w _ U H (notoken_triple r H0))); [reflexivity|]. eexists; reflexivity.
  - rewrite (peek_tok id (lex_of c) _ _ U T). cbn [bind kind_of t_kind]. unfold Parser.parse_atomic.
    rewrite (tok_complete id (lex_of c) _ _ U T). cbn [bind kind_of t_kind t_value]. rewrite H0. reflexivity.
  - rewrite (peek_tok id (lex_of c) _ _ U T). cbn [bind kind_of t_kind].
    rewrite (tok_complete id (lex_of c) _ _ U T). cbn [bind kind_of t_kind].
    destruct (eof_spec (lex_of c1)) as (x & Ex & Ix). rewrite Ex. cbn [bind]. destruct x; [reflexivity|].
    destruct H0 as [H0|H0]. { apply Ix in H0. discriminate. }
    destruct (peek_closing c1 U2 H0) as (tok & P & K). rewrite P. cbn [bind]. rewrite K. reflexivity.
  - rewrite (peek_tok id (lex_of c) _ _ U T). cbn [bind kind_of t_kind].
    rewrite (tok_complete id (lex_of c) _ _ U T). cbn [bind kind_of t_kind].
    rewrite eof_false by (eapply fault_not_trailing; eauto). cbn [bind].
    destruct (fault_peek _ _ _ H1 U2) as [P|(tok2 & s3 & T2)]; [rewrite P; reflexivity|].
    rewrite (peek_tok id (lex_of c1) _ _ U2 T2). cbn [bind]. pose proof (closing_tok _ _ _ U2 T2) as C.
    destruct (t_kind tok2) eqn:K; try (rewrite (IHFault f U2) by lia; reflexivity). exfalso. apply H0, C. reflexivity.
  - rewrite (peek_tok id (lex_of c) _ _ U T). cbn [bind kind_of t_kind].
    rewrite (tok_complete id (lex_of c) _ _ U T). cbn [bind kind_of t_kind].
    rewrite (forest_open _ _ _ H0 H1 U2 f) by lia. reflexivity.
  - rewrite (peek_tok id (lex_of c) _ _ U T). cbn [bind kind_of t_kind].
    rewrite (tok_complete id (lex_of c) _ _ U T). cbn [bind kind_of t_kind].
    rewrite (forest_fault _ _ _ _ _ H0 H2 H1 IHFault U2 f) by lia. reflexivity.
Qed.

Lemma loop_reports : forall c ns c' e st, Forest c ns c' -> Fault c' e st -> utf8 (ahead c) ->
  forall fuel, 2 * length (ahead c) < fuel -> parse_loop fuel (lex_of c) = Err (EErr e st).
Proof.
  intros c ns c' e st F FA. induction F as [c|c n c1 ns c2 T F IH]; intros U fuel L; (destruct fuel as [|f]; [lia|]);
    cbn [Parser.parse_loop].
  - rewrite eof_false by (eapply fault_not_trailing; eauto). cbn [bind].
    rewrite (fault_reports _ _ _ FA f U) by lia. reflexivity.
  - pose proof (tree_g _ _ _ T) as G. destruct (proj1 (g_utf8 unescape id) _ _ _ G U) as [U1 LT].
    pose proof (proj1 (g_complete unescape id) _ _ _ G U f ltac:(cbn; lia)) as PE.
    destruct (g_start _ _ _ _ _ G) as (tok2 & s3 & T2 & K2).
    rewrite (eof_tok id (lex_of c) _ _ U T2). cbn [bind]. rewrite PE. cbn [bind]. cbn in U1, LT.
    rewrite (IH FA U1 f) by lia. reflexivity.
Qed.

Theorem syntax_iff : forall src r, utf8 src ->
  parse unescape id src = r <-> Syntax unescape id src r.
Proof.
  intros src r U. assert (S : lex_new src = lex_of (beginning src)) by reflexivity. split.
  - intros <-. pose proof (parse_returns unescape id src U) as R.
    destruct (parse unescape id src) as [ns|[e st]|p| |] eqn:P; try contradiction.
    + apply parse_iff in P; auto. destruct (gprog_forest _ _ P _ S) as (c & F & T). econstructor; eauto.
    + unfold parse, parse_fuel in P. rewrite S in P.
      destruct (loop_bad (2 * length src + 2) (beginning src) e st U ltac:(cbn; lia) P) as (ns & c & F & FA). econstructor; eauto.
    + apply syntax_cut. exact R.
  - intros H. destruct H as [ns c F T|ns c e st F FA|D].
    + apply parse_iff; auto. rewrite S. eapply forest_gprog; eauto.
    + unfold parse, parse_fuel. rewrite S. eapply loop_reports; eauto. cbn. lia.
    + apply parse_hang_iff; auto.
Qed.
End P.
