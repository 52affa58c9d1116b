(** * Proofs: sources that differ in comments (C71) *)

From Coq Require Import List Ascii Bool Arith Lia Permutation.
From Verif Require Import Text Utf8 Res Lexer Ast Parser Env Scope State Spec_grammar Spec_keep Spec_place Spec_moved
  Proofs_text Proofs_token Proofs_parser Proofs_syntax Proofs_place Proofs_run Proofs_print Proofs_moved.
From Verif Require Import Args Expander.
Import ListNotations.

Lemma reworded_sym x y : Reworded x y -> Reworded y x.
Proof. intros H. induction H; [apply rw_end; assumption|]. eapply rw_token; eassumption. Qed.

Lemma next_utf8 c k v w st c1 : Next 0 c k v w st c1 -> utf8 (ahead c) -> utf8 (ahead c1).
Proof. intros N U. apply next_tok in N. apply (tok_utf8 0 (lex_of c) _ _ U) in N as [H _]. exact H. Qed.

(** The next token is the same. *)
Lemma reworded_next c c' k v w st c1 : utf8 (ahead c) -> Reworded (ahead c) (ahead c') -> Next 0 c k v w st c1 ->
  exists st' c1', Next 0 c' k v w st' c1' /\ Reworded (ahead c1) (ahead c1').
Proof.
  intros U RW N. assert (T := next_tok _ _ _ _ _ _ _ N). destruct c as [before extra x], c' as [before' extra' x']. cbn [ahead] in *.
  destruct RW as [t t' E E'|bl bl' w0 txt txt' k0 v0 rest rest' B B' X X' RW].
  - exfalso. eapply (tok_not_trailing 0 (lex_of (Cursor before extra t))); eauto.
  - assert (N0 := next 0 before extra bl w0 txt k0 v0 rest B X). assert (T0 := next_tok _ _ _ _ _ _ _ N0).
    destruct (tok_unique 0 (lex_of (Cursor before extra (bl ++ txt ++ rest))) _ _ _ _ U T T0) as [Q1 Q2].
    assert (K : k = k0) by (injection Q1 as K _ _ _; destruct k, k0; try discriminate; reflexivity).
    injection Q1 as _ -> -> _. subst k0.
    assert (A : ahead c1 = rest) by (apply (f_equal l_rest) in Q2; exact Q2).
    do 2 eexists. split; [apply (next 0 before' extra' bl' w0 txt' k v0 rest' B' X')|]. cbn. rewrite A. exact RW.
Qed.
Lemma reworded_trailing c c' : utf8 (ahead c) -> Reworded (ahead c) (ahead c') -> Trailing (ahead c) -> Trailing (ahead c').
Proof.
  intros U RW T. destruct c as [before extra x], c' as [before' extra' x']. cbn [ahead] in *.
  destruct RW as [t t' E E'|bl bl' w0 txt txt' k0 v0 rest rest' B B' X X' RW]; [exact E'|].
  exfalso. assert (T0 := next_tok _ _ _ _ _ _ _ (next 0 before extra bl w0 txt k0 v0 rest B X)).
  eapply (tok_not_trailing 0 (lex_of (Cursor before extra (bl ++ txt ++ rest)))); eauto.
Qed.
Lemma reworded_closing c c' : utf8 (ahead c) -> Reworded (ahead c) (ahead c') -> closing 0 c -> closing 0 c'.
Proof.
  intros U RW (v & w & st & c1 & N). destruct (reworded_next _ _ _ _ _ _ _ U RW N) as (st' & c1' & N' & _).
  exists v, w, st', c1'. exact N'.
Qed.

Section Reworded.
Variable unescape : bytes -> option bytes.
Variable R : site -> site -> Prop.
Notation mv := (moved R).

Definition sync (c c' : cursor) : Prop :=
  Reworded (ahead c) (ahead c') /\ utf8 (ahead c) /\ utf8 (ahead c') /\ forall st st', Partners c c' st st' -> R st st'.

Lemma next_source c k v w st c1 : Next 0 c k v w st c1 -> s_src st = 0.
Proof. intros []. reflexivity. Qed.
Lemma sync_next c c' k v w st c1 : sync c c' -> Next 0 c k v w st c1 ->
  exists st' c1', Next 0 c' k v w st' c1' /\ mv st st' /\ sync c1 c1'.
Proof.
  intros (RW & U & U' & P) N. destruct (reworded_next _ _ _ _ _ _ _ U RW N) as (st' & c1' & N' & RW1).
  exists st', c1'. split; [exact N'|]. split.
  - unfold moved. rewrite (next_source _ _ _ _ _ _ N). cbn. split; [eapply next_source, N'|]. apply P. eapply pt_here; eassumption.
  - split; [exact RW1|]. split; [eapply next_utf8; eassumption|]. split; [eapply next_utf8; eassumption|].
    intros x x' X. apply P. eapply pt_later; eassumption.
Qed.

Lemma tree_reworded :
  (forall c n c1, Tree unescape 0 c n c1 -> forall c', sync c c' ->
     exists n' c1', Tree unescape 0 c' n' c1' /\ alike R n n' /\ sync c1 c1') /\
  (forall c ns c1, Forest unescape 0 c ns c1 -> forall c', sync c c' ->
     exists ns' c1', Forest unescape 0 c' ns' c1' /\ Forall2 (alike R) ns ns' /\ sync c1 c1').
Proof.
  apply (tree_ind2 unescape 0
    (fun c n c1 => forall c', sync c c' -> exists n' c1', Tree unescape 0 c' n' c1' /\ alike R n n' /\ sync c1 c1')
    (fun c ns c1 => forall c', sync c c' -> exists ns' c1', Forest unescape 0 c' ns' c1' /\ Forall2 (alike R) ns ns' /\ sync c1 c1')).
  - intros c v w st c1 N c' S. destruct (sync_next _ _ _ _ _ _ _ S N) as (st' & c1' & N' & M & S').
    do 2 eexists. split; [apply t_symbol, N'|]. split; [|exact S']. constructor. repeat split. exact M.
  - intros c v w st c1 N c' S. destruct (sync_next _ _ _ _ _ _ _ S N) as (st' & c1' & N' & M & S').
    do 2 eexists. split; [apply t_number, N'|]. split; [|exact S']. constructor. repeat split. exact M.
  - intros c v u w st c1 N Q c' S. destruct (sync_next _ _ _ _ _ _ _ S N) as (st' & c1' & N' & M & S').
    do 2 eexists. split; [eapply t_string; [exact N'|exact Q]|]. split; [|exact S']. constructor. repeat split. exact M.
  - intros c k w st c1 n c2 N T IH c' S. destruct (sync_next _ _ _ _ _ _ _ S N) as (st' & c1' & N' & M & S').
    destruct (IH _ S') as (n' & c2' & T' & A & S2). do 2 eexists. split; [eapply t_attribute; eassumption|]. split; [|exact S2].
    constructor; assumption.
  - intros c p w st c1 ns c2 q ew es c3 N F IH N2 c' S. destruct (sync_next _ _ _ _ _ _ _ S N) as (st' & c1' & N' & M & S').
    destruct (IH _ S') as (ns' & c2' & F' & A & S2). destruct (sync_next _ _ _ _ _ _ _ S2 N2) as (es' & c3' & N2' & M2 & S3).
    do 2 eexists. split; [eapply t_list; eassumption|]. split; [|exact S3]. constructor; assumption.
  - intros c c' S. exists [], c'. split; [constructor|]. split; [constructor|exact S].
  - intros c n c1 ns c2 T IHT F IH c' S. destruct (IHT _ S) as (n' & c1' & T' & A & S1). destruct (IH _ S1) as (ns' & c2' & F' & AS & S2).
    do 2 eexists. split; [eapply f_cons; eassumption|]. split; [constructor; assumption|exact S2].
Qed.

Lemma sync_token c c' : sync c c' -> Trailing (ahead c) \/ exists tok s2, Tok 0 (lex_of c) tok s2.
Proof.
  intros (RW & _). destruct c as [before extra x]. cbn [ahead] in *.
  destruct RW as [t t' E E'|bl bl' w0 txt txt' k0 v0 rest rest' B B' X X' RW]; [left; exact E|].
  right. do 2 eexists. eapply next_tok, (next 0 before extra bl w0 txt k0 v0 rest B X).
Qed.
Lemma fault_reworded : forall c e st, Fault unescape 0 c e st -> forall c', sync c c' -> exists st', Fault unescape 0 c' e st' /\ mv st st'.
Proof.
  assert (CL : forall c c', sync c c' -> closing 0 c' -> closing 0 c).
  { intros c c' (RW & U & U' & _). apply reworded_closing; [exact U'|apply reworded_sym, RW]. }
  assert (NF : forall c c' e st, sync c c' -> Fault unescape 0 c e st -> peek 0 (lex_of c) = Err (EErr e st) -> False).
  { intros c c' e' st' S F P. destruct (sync_token _ _ S) as [T|(tok & s2 & T)].
    - eapply fault_not_trailing; [exact F|apply S|exact T].
    - rewrite (peek_tok 0 (lex_of c) _ _ (proj1 (proj2 S)) T) in P. discriminate. }
  intros c0 e0 st0 F. induction F as [c v w st c1 N|before extra bl w r B Q1 Q2|before extra bl w r B Q1|c v w st c1 N Q|c k w st c1 N Q|c k w st c1 e st1 N Q F IH
    |c p w st c1 ns c2 N F T|c p w st c1 ns c2 e st1 N F Q F2 IH]; intros c' S.
  - destruct (sync_next _ _ _ _ _ _ _ S N) as (st' & c1' & N' & M & S'). exists st'. split; [eapply fault_closing; eassumption|exact M].
  - exfalso. eapply NF; [exact S|eapply fault_string; eassumption|].
    apply (proj1 (open_peek 0 before extra bl w r (proj1 (proj2 S)) B (notoken_string r Q1 Q2))). exact Q1.
  - exfalso. eapply NF; [exact S|eapply fault_triple; eassumption|].
    apply (proj2 (open_peek 0 before extra bl w _ (proj1 (proj2 S)) B (notoken_triple r Q1))). eexists. reflexivity.
  - destruct (sync_next _ _ _ _ _ _ _ S N) as (st' & c1' & N' & M & S'). exists st'. split; [eapply fault_escape; eassumption|exact M].
  - destruct (sync_next _ _ _ _ _ _ _ S N) as (st' & c1' & N' & M & S'). exists st'. split; [|exact M].
    eapply fault_no_value; [exact N'|]. destruct S' as (RW & U & U' & _). destruct Q as [Q|Q]; [left|right].
    + exact (reworded_trailing c1 c1' U RW Q).
    + exact (reworded_closing c1 c1' U RW Q).
  - destruct (sync_next _ _ _ _ _ _ _ S N) as (st' & c1' & N' & M & S'). destruct (IH _ S') as (st1' & F' & M').
    exists st1'. split; [|exact M']. eapply fault_value; [exact N'| |exact F']. intros C. apply Q. eapply CL; eassumption.
  - destruct (sync_next _ _ _ _ _ _ _ S N) as (st' & c1' & N' & M & S'). exists st'. split; [|exact M].
    destruct (proj2 tree_reworded _ _ _ F _ S') as (ns' & c2' & F' & _ & S2). eapply fault_open; [exact N'|exact F'|].
    destruct S2 as (RW & U & _). exact (reworded_trailing c2 c2' U RW T).
  - destruct (sync_next _ _ _ _ _ _ _ S N) as (st' & c1' & N' & M & S').
    destruct (proj2 tree_reworded _ _ _ F _ S') as (ns' & c2' & F' & _ & S2). destruct (IH _ S2) as (st1' & F2' & M').
    exists st1'. split; [|exact M']. eapply fault_inside; [exact N'|exact F'| |exact F2']. intros C. apply Q. eapply CL; eassumption.
Qed.
End Reworded.

(** A source made of tokens does not break off. *)
Section Cut.
Variable unescape : bytes -> option bytes.

Definition made (x : bytes) : Prop := utf8 x /\ exists y, Reworded x y.
Lemma made_token bl w txt k v rest : Blank bl w -> TokText txt k v rest -> made (bl ++ txt ++ rest) -> made rest.
Proof.
  intros B X (U & y & RW). assert (N := next 0 [] 0 bl w txt k v rest B X).
  destruct (reworded_next (Cursor [] 0 _) (Cursor [] 0 y) _ _ _ _ _ U RW N) as (st' & c1' & _ & RW').
  split; [exact (next_utf8 _ _ _ _ _ _ N U)|]. eexists. exact RW'.
Qed.
Lemma made_expr : (forall x e rest, Expr unescape x e rest -> made x -> made rest) /\
  (forall x es ew rest, Items unescape x es ew rest -> made x -> made rest).
Proof.
  apply (E_mutind unescape (fun x _ rest _ => made x -> made rest) (fun x _ _ rest _ => made x -> made rest)); intros.
  - eapply made_token; [eassumption|apply tt_sym; eassumption|assumption].
  - eapply made_token; [eassumption|apply tt_num; eassumption|assumption].
  - eapply made_token; [eassumption|eapply (tt_str t rest); eassumption|]. cbn. rewrite <- !app_assoc. assumption.
  - eapply made_token; [eassumption|eapply (tt_triple t rest); eassumption|]. rewrite <- !app_assoc. assumption.
  - apply H. eapply made_token; [eassumption|eapply (tt_kw t mid); eassumption|]. assumption.
  - apply H. eapply made_token; [eassumption|eapply (tt_lparen mid)|]. assumption.
  - eapply made_token; [eassumption|eapply (tt_rparen rest)|]. assumption.
  - auto.
Qed.
Lemma made_whole : (forall x, DanglingExpr unescape x -> ~ made x) /\ (forall x, Dangling unescape x -> ~ made x).
Proof.
  apply (D_mutind unescape (fun x _ => ~ made x) (fun x _ => ~ made x)).
  - intros bl w x B C (U & y & RW). remember (bl ++ x) as t eqn:Q. destruct RW as [t t' E _|bl1 bl' w1 txt txt' k v rest rest' B1 B' X X' RW].
    + subst t. exact (cut_not_trailing 0 bl w x U B C E).
    + assert (T := next_tok _ _ _ _ _ _ _ (next 0 [] 0 bl1 w1 txt k v rest B1 X)).
      assert (H := cut_hangs 0 (lex_of (Cursor [] 0 (bl1 ++ txt ++ rest))) bl w x U B Q C).
      rewrite (tok_complete 0 (lex_of (Cursor [] 0 (bl1 ++ txt ++ rest))) _ _ U T) in H. discriminate.
  - intros bl w mid B D IH M. apply IH. eapply made_token; [exact B|eapply (tt_lparen mid)|exact M].
  - intros bl w t mid B I S D IH M. apply IH. eapply made_token; [exact B|eapply (tt_kw t mid); assumption|exact M].
  - intros s D IH. exact IH.
  - intros s e mid X D IH M. apply IH. eapply (proj1 made_expr); eassumption.
Qed.
End Cut.

(** Reading both sources. *)
Theorem parse_reworded unescape src src' : utf8 src -> utf8 src' -> Reworded src src' ->
  match parse unescape 0 src, parse unescape 0 src' with
  | Ok ns, Ok ns' => Forall2 (alike (partners src src')) ns ns'
  | Err (EErr k st), Err (EErr k' st') => k = k' /\ moved (partners src src') st st'
  | _, _ => False
  end.
Proof.
  intros U U' RW. assert (S : sync (partners src src') (beginning src) (beginning src')).
  { split; [exact RW|]. split; [exact U|]. split; [exact U'|]. intros st st' P. exact P. }
  assert (H := proj1 (syntax_iff unescape 0 src _ U) eq_refl).
  inversion H as [ns c F T Q|ns c e st F FA Q|D Q].
  - destruct (proj2 (tree_reworded unescape _) _ _ _ F _ S) as (ns' & c' & F' & A & S').
    assert (P' : parse unescape 0 src' = Ok ns').
    { apply syntax_iff; [exact U'|]. econstructor; [exact F'|]. destruct S' as (RW' & V & _). exact (reworded_trailing c c' V RW' T). }
    rewrite P'. exact A.
  - destruct (proj2 (tree_reworded unescape _) _ _ _ F _ S) as (ns' & c' & F' & A & S').
    destruct (fault_reworded unescape _ _ _ _ FA _ S') as (st' & FA' & M).
    assert (P' : parse unescape 0 src' = Err (EErr e st')).
    { apply syntax_iff; [exact U'|]. econstructor; eassumption. }
    rewrite P'. split; [reflexivity|exact M].
  - apply (proj2 (made_whole unescape) _ D). split; [exact U|]. eexists. exact RW.
Qed.

Theorem program_reworded E fuel path text text' :
  (forall seed l, Permutation (e_order E seed l) l) -> reads_text E -> utf8 text -> utf8 text' -> Reworded text text' ->
  (forall tree, parse (e_unescape E) 0 text = Ok tree -> lambda_free E fuel tree (initial path text)) ->
  alike_outcome (partners text text') (expand E fuel path text) (expand E fuel path text').
Proof.
  intros ORDER READS U U' RW LF. assert (P := parse_reworded (e_unescape E) text text' U U' RW). unfold expand.
  destruct (parse (e_unescape E) 0 text) as [ns|[k st]| | |] eqn:Q; destruct (parse (e_unescape E) 0 text') as [ns'|[k' st']| | |];
    try contradiction; cbn.
  - apply expansion_alike; [assumption..|apply initial_alike|apply LF; reflexivity].
  - destruct P as [<- M]. apply ao_err. exact M.
Qed.

(** ** Deciding the hypotheses *)
Definition same_kind (k k' : kind) : bool :=
  match k, k' with
  | KLParen, KLParen | KRParen, KRParen | KSymbol, KSymbol | KString, KString | KNumber, KNumber | KKeyword, KKeyword => true
  | _, _ => false
  end.
Fixpoint same_tokens (fuel : nat) (s s' : lex) : bool :=
  match fuel with
  | 0 => false
  | S f =>
      match consume 0 s, consume 0 s' with
      | Ok (t, s1), Ok (t', s1') => same_kind (t_kind t) (t_kind t') && beq (t_value t) (t_value t') && beq (t_ws t) (t_ws t') && same_tokens f s1 s1'
      | Panic _, Panic _ => true
      | _, _ => false
      end
  end.
Lemma tok_rest s tok s2 : Tok 0 s tok s2 -> exists bl txt k,
  l_rest s = bl ++ txt ++ l_rest s2 /\ Blank bl (t_ws tok) /\ TokText txt k (t_value tok) (l_rest s2) /\ t_kind tok = kind_of k.
Proof.
  intros (bl & w & s1 & txt & k & v & B & (A1 & _) & (A2 & _) & X & ->). exists bl, txt, k. cbn.
  rewrite A1, A2. auto.
Qed.
Lemma same_tokens_reworded f : forall s s', utf8 (l_rest s) -> utf8 (l_rest s') -> same_tokens f s s' = true ->
  Reworded (l_rest s) (l_rest s').
Proof.
  induction f as [|f IH]; intros s s' U U' H; [discriminate|]. cbn [same_tokens] in H.
  destruct (consume_spec 0 s U) as [t s1 T V _|T|? ? ? ? ? ?|? ? ? ? ? ? ? ? ? ? ?]; try discriminate;
  destruct (consume_spec 0 s' U') as [t' s1' T' V' _|T'|? ? ? ? ? ?|? ? ? ? ? ? ? ? ? ? ?]; try discriminate.
  - apply andb_prop in H as [H R]. apply andb_prop in H as [H W]. apply andb_prop in H as [K Vl].
    apply beq_eq in Vl, W. destruct (tok_rest _ _ _ T) as (bl & txt & k & Q & B & X & KK).
    destruct (tok_rest _ _ _ T') as (bl' & txt' & k' & Q' & B' & X' & KK'). rewrite Q, Q'. rewrite <- Vl in X'. rewrite <- W in B'.
    assert (k = k') as <- by (rewrite KK, KK' in K; destruct k, k'; try discriminate; reflexivity).
    eapply rw_token; try eassumption. apply IH; assumption.
  - apply rw_end; assumption.
Qed.
Lemma reworded_by f x x' : is_true (forallb (fun c => nat_of_ascii c <=? 127) x) -> is_true (forallb (fun c => nat_of_ascii c <=? 127) x') ->
  same_tokens f (lex_new x) (lex_new x') = true -> utf8 x /\ utf8 x' /\ Reworded x x'.
Proof.
  intros A A'. apply is_utf8 in A, A'. intros H. split; [exact A|]. split; [exact A'|].
  exact (same_tokens_reworded f (lex_new x) (lex_new x') A A' H).
Qed.

(** A run that ends without an answer from [%lambda] does not depend on it. *)
Lemma run_with_le what E : forall f t s, le_out (run_with OutOfFuel E f t s) (run_with what E f t s).
Proof.
  induction f as [|f IH]; intros t s; [left; reflexivity|]. cbn [run_with].
  destruct t; [apply le_expand_one; intros; apply IH|].
  match goal with |- context [if ?c then _ else _] => destruct c end; [left; reflexivity|]. apply le_invoke; intros; apply IH.
Qed.
Lemma run_with_run E : forall f t s, le_out (run_with OutOfFuel E f t s) (run E f t s).
Proof.
  induction f as [|f IH]; intros t s; [left; reflexivity|]. cbn [run_with run].
  destruct t; [apply le_expand_one; intros; apply IH|].
  match goal with |- context [if ?c then _ else _] => destruct c end; [left; reflexivity|]. apply le_invoke; intros; apply IH.
Qed.
Theorem lambda_free_ends E fuel tree s :
  exs (fun n s => run_with OutOfFuel E fuel (TNode n) s) tree s <> OutOfFuel -> lambda_free E fuel tree s.
Proof.
  intros H what.
  assert (A := le_exs _ (fun n s => run_with what E fuel (TNode n) s) (fun n s => run_with_le what E fuel (TNode n) s) tree s).
  assert (B := le_exs _ (fun n s => run E fuel (TNode n) s) (fun n s => run_with_run E fuel (TNode n) s) tree s).
  destruct A as [A|A]; [contradiction|]. destruct B as [B|B]; [contradiction|]. unfold expand_nodes. rewrite <- A. exact B.
Qed.
