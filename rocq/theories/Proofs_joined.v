(** * Proofs about sources put one after the other *)

From Coq Require Import String List Ascii Bool Arith Lia.
From Verif Require Import Text Utf8 Res Lexer Ast Parser Spec_grammar Spec_tree Spec_syntax Spec_joined Proofs_text
  Proofs_ast Proofs_lexer Proofs_token Proofs_comments Proofs_parser Proofs_syntax Proofs_print.
Import ListNotations.

(** ** A line feed before a source *)

Definition sset (w : bytes) (e : stree) : stree :=
  match e with
  | SSym _ v => SSym w v
  | SNum _ v => SNum w v
  | SStr _ v => SStr w v
  | SRaw _ v => SRaw w v
  | SList _ es ew => SList w es ew
  | SAttr _ k v => SAttr w k v
  end.

Section Led.
Variable unescape : bytes -> option bytes.

Lemma lf_blank bl w : Blank bl w -> exists w', Blank (LF :: bl) w'.
Proof.
  intros B. refine (blank_app [LF] [LF] bl w _ B). apply blank_ws. constructor; [left; reflexivity|constructor].
Qed.

Ltac led := match goal with B : Blank ?bl _ |- _ => destruct (lf_blank _ _ B) as [? ?]; rewrite app_comm_cons end.

Lemma expr_led x e mid : Expr unescape x e mid -> exists w, Expr unescape (LF :: x) (sset w e) mid.
Proof.
  intros X. destruct X; led; eexists; cbn [sset].
  - eapply e_sym; eauto.
  - eapply e_num; eauto.
  - eapply e_str; eauto.
  - eapply e_triple; eauto.
  - eapply e_attr; eauto.
  - eapply e_list; eauto.
Qed.

Lemma trailing_led x : Trailing x -> Trailing (LF :: x).
Proof.
  intros Y. destruct Y as [bl w B|bl w body B I].
  - destruct (lf_blank _ _ B) as [w' B']. eapply trail_blank; eauto.
  - led. eapply trail_comment; eauto.
Qed.

Lemma bad_led x k here n : BadProgram unescape x k here n -> BadProgram unescape (LF :: x) k here n.
Proof.
  intros P. destruct P as [x k here n X|x e mid k here n X P].
  - apply bp_here. destruct X; led.
    + eapply b_close; eauto.
    + eapply b_string; eauto.
    + eapply b_triple; eauto.
    + eapply b_escape; eauto.
    + eapply b_no_value; eauto.
    + eapply b_value; eauto.
    + eapply b_open; eauto.
    + eapply b_list; eauto.
  - destruct (expr_led _ _ _ X) as [w X']. eapply bp_skip; eauto.
Qed.

Lemma dangling_led x : Dangling unescape x -> Dangling unescape (LF :: x).
Proof.
  intros P. destruct P as [x X|x e mid X P].
  - apply d_expr. destruct X; led.
    + eapply d_here; eauto.
    + eapply d_list; eauto.
    + eapply d_attr; eauto.
  - destruct (expr_led _ _ _ X) as [w X']. eapply d_skip; eauto.
Qed.
End Led.

(** ** What is appended after a line feed does not change what is read before *)

Section Joined.
Variable unescape : bytes -> option bytes.
Variable z : bytes.
Notation y := (LF :: z).

Lemma stops_y rest : stops rest -> stops (rest ++ y).
Proof. destruct rest; cbn; [|auto]. intros _. left. left. reflexivity. Qed.

Lemma expr_append :
  (forall s e rest, Expr unescape s e rest -> Expr unescape (s ++ y) e (rest ++ y)) /\
  (forall s es ew rest, Items unescape s es ew rest -> Items unescape (s ++ y) es ew (rest ++ y)).
Proof.
  apply E_mutind; intros.
  - rewrite <- !app_assoc. apply e_sym; auto using stops_y.
  - rewrite <- !app_assoc. apply e_num; auto using stops_y.
  - replace ((bl ++ DQ :: t ++ DQ :: rest) ++ y) with (bl ++ DQ :: t ++ DQ :: (rest ++ y))
      by (rewrite <- app_assoc; cbn; rewrite <- app_assoc; reflexivity).
    apply e_str with (w := w); auto. intros [-> [r R]]. apply n. split; [reflexivity|].
    destruct rest as [|c rest]; cbn in R; [discriminate R|]. injection R as -> _. eauto.
  - replace ((bl ++ quote3 ++ t ++ quote3 ++ rest) ++ y) with (bl ++ quote3 ++ t ++ quote3 ++ (rest ++ y))
      by (rewrite <- !app_assoc; reflexivity).
    apply e_triple; auto.
  - replace ((bl ++ ":"%char :: t ++ mid) ++ y) with (bl ++ ":"%char :: t ++ (mid ++ y))
      by (rewrite <- app_assoc; cbn; rewrite <- app_assoc; reflexivity).
    apply e_attr; auto using stops_y.
  - rewrite <- app_assoc. cbn. apply e_list; auto.
  - rewrite <- app_assoc. cbn. apply i_end; auto.
  - eapply i_cons; eauto.
Qed.

(** ** Trailing blanks and comments become part of the blanks that follow *)


Lemma blank_after_comment bl w : Blank bl w -> forall r, bl = LF :: r ->
  forall t w0 body, Blank t w0 -> ~ In LF body -> exists w', Blank ((t ++ ";"%char :: body) ++ bl) w'.
Proof.
  induction 1 as [w F|u w' body w B IH I F]; intros r E t w0 body0 B0 I0.
  - subst w. inversion F; subst. exists (LF :: r). rewrite <- app_assoc. cbn.
    eapply blank_comment; eauto.
  - destruct u as [|c u]; [discriminate E|]. injection E as -> E.
    destruct (IH u eq_refl t w0 body0 B0 I0) as [w1 B1].
    exists (LF :: w). rewrite app_assoc. eapply blank_comment; eauto.
Qed.

Lemma blank_after t bl w r : Trailing t -> Blank bl w -> bl = LF :: r -> exists w', Blank (t ++ bl) w'.
Proof.
  intros T B E. inversion T as [t0 w0 B0|t0 w0 body B0 I]; subst t.
  - exact (blank_app _ _ _ _ B0 B).
  - exact (blank_after_comment _ _ B _ E _ _ _ B0 I).
Qed.

(** [y] begins with a line feed, so its blanks do. *)
Lemma blank_first t bl w c x : Trailing t -> Blank bl w -> bl ++ c :: x = y -> c <> LF ->
  exists w', Blank (t ++ bl) w'.
Proof.
  intros T B E N. destruct bl as [|c0 bl]; [injection E; intros; congruence|].
  injection E as -> _. eapply blank_after; eauto.
Qed.

Lemma symbol_no_lf c : symbol_start c -> c <> LF.
Proof. intros [D _] ->. apply D. left. left. reflexivity. Qed.
Lemma number_no_lf c : number_start c -> c <> LF.
Proof. intros [[D _]|[D|D]] ->; [|discriminate D|discriminate D]. vm_compute in D. lia. Qed.
Lemma ident_no_lf c t : Ident (c :: t) -> c <> LF.
Proof.
  intros I. inversion I as [|c0 t0 P I'|c0 t0 I']; [|discriminate].
  destruct P as [D _]. intros ->. apply D. left. left. reflexivity.
Qed.

Section After.
Variable t : bytes.
Hypothesis T : Trailing t.

Ltac lead := match goal with B : Blank ?bl _, E : ?bl ++ ?c :: _ = y |- _ =>
  let H := fresh in assert (H : exists w', Blank (t ++ bl) w');
  [eapply blank_first; [exact T|exact B|exact E|] | destruct H as [? ?]] end.

Lemma expr_first e mid : Expr unescape y e mid -> exists w, Expr unescape (t ++ y) (sset w e) mid.
Proof.
  intros X. remember y as x eqn:E. destruct X; cbn [app] in E.
  - lead; [apply symbol_no_lf; assumption|]. eexists. rewrite app_assoc. cbn [sset]. eapply e_sym; eauto.
  - lead; [apply number_no_lf; assumption|]. eexists. rewrite app_assoc. cbn [sset]. eapply e_num; eauto.
  - lead; [discriminate|]. eexists. rewrite app_assoc. cbn [sset]. eapply e_str; eauto.
  - unfold quote3 in E. cbn [app] in E. lead; [discriminate|]. eexists. rewrite app_assoc. cbn [sset]. eapply e_triple; eauto.
  - lead; [discriminate|]. eexists. rewrite app_assoc. cbn [sset]. eapply e_attr; eauto.
  - lead; [discriminate|]. eexists. rewrite app_assoc. cbn [sset]. eapply e_list; eauto.
Qed.

Lemma trailing_first : Trailing y -> Trailing (t ++ y).
Proof.
  intros Y. remember y as x eqn:E. destruct Y as [bl w B|bl w body B I].
  - destruct (blank_after t bl w z T B E) as [w' B']. eapply trail_blank; eauto.
  - lead; [discriminate|]. rewrite app_assoc. eapply trail_comment; eauto.
Qed.

Lemma bad_first k here n : BadExpr unescape y k here n -> BadExpr unescape (t ++ y) k here n.
Proof.
  intros X. remember y as x eqn:E. destruct X; cbn [app] in E.
  - lead; [discriminate|]. rewrite app_assoc. eapply b_close; eauto.
  - lead; [discriminate|]. rewrite app_assoc. eapply b_string; eauto.
  - unfold quote3 in E. cbn [app] in E. lead; [discriminate|]. rewrite app_assoc. eapply b_triple; eauto.
  - assert (Q : exists u, txt = DQ :: u) by (inversion H0; subst; eexists; reflexivity).
    destruct Q as [u Q]. rewrite Q in E. cbn [app] in E. lead; [discriminate|]. rewrite app_assoc. eapply b_escape; eauto.
  - lead; [discriminate|]. rewrite app_assoc. eapply b_no_value; eauto.
  - lead; [discriminate|]. rewrite app_assoc. eapply b_value; eauto.
  - lead; [discriminate|]. rewrite app_assoc. eapply b_open; eauto.
  - lead; [discriminate|]. rewrite app_assoc. eapply b_list; eauto.
Qed.

Lemma bad_program_first k here n : BadProgram unescape y k here n -> BadProgram unescape (t ++ y) k here n.
Proof.
  intros P. remember y as x eqn:E. destruct P as [x k here n X|x e mid k here n X P]; subst x.
  - apply bp_here, bad_first, X.
  - destruct (expr_first _ _ X) as [w X']. eapply bp_skip; eauto.
Qed.

Lemma dangling_expr_first : DanglingExpr unescape y -> DanglingExpr unescape (t ++ y).
Proof.
  intros X. remember y as x eqn:E. destruct X; cbn [app] in E.
  - assert (Q : exists c u, x = c :: u /\ c <> LF).
    { inversion H0 as [v I _ Q]; subst. destruct v as [|c v]; [exists BS, []; split; [reflexivity|discriminate]|].
      exists c, (v ++ [BS]). split; [reflexivity|exact (ident_no_lf _ _ I)]. }
    destruct Q as [c [u [-> N]]]. lead; [exact N|]. rewrite app_assoc. eapply d_here; eauto.
  - lead; [discriminate|]. rewrite app_assoc. eapply d_list; eauto.
  - lead; [discriminate|]. rewrite app_assoc. eapply d_attr; eauto.
Qed.

Lemma dangling_first : Dangling unescape y -> Dangling unescape (t ++ y).
Proof.
  intros P. remember y as x eqn:E. destruct P as [x X|x e mid X P]; subst x.
  - apply d_expr, dangling_expr_first, X.
  - destruct (expr_first _ _ X) as [w X']. eapply d_skip; eauto.
Qed.
End After.

(** ** Whole sources *)

(** The trees of the first source keep their positions too. *)
Variable id : nat.
Definition plus (s : lex) : lex := Lex (l_line s) (l_off s) (l_col s) (l_rest s ++ y).

Lemma toktext_append txt k v rest : TokText txt k v rest -> TokText txt k v (rest ++ y).
Proof.
  destruct 1; try (constructor; auto using stops_y; fail).
  constructor; [assumption|]. intros [-> [r R]]. apply H0. split; [reflexivity|].
  destruct rest as [|c rest]; cbn in R; [discriminate R|]. injection R as -> _. eauto.
Qed.

Lemma adv_append k t s s' : adv k t s s' -> adv k t (plus s) (plus s').
Proof.
  intros (A1 & A2 & A3 & A4). repeat split; cbn; auto. rewrite A1, app_assoc. reflexivity.
Qed.

Lemma tok_append s tok s2 : Tok id s tok s2 -> Tok id (plus s) tok (plus s2).
Proof.
  intros (bl & w & s1 & txt & k & v & H). exists bl, w, (plus s1), txt, k, v. cbn [plus l_rest].
  intuition auto using adv_append, toktext_append.
Qed.

Lemma g_append :
  (forall s n s2, GExpr unescape id s n s2 -> GExpr unescape id (plus s) n (plus s2)) /\
  (forall s ns rp s2, GItems unescape id s ns rp s2 -> GItems unescape id (plus s) ns rp (plus s2)).
Proof.
  apply G_mutind; intros.
  - apply g_sym; auto using tok_append.
  - apply g_num; auto using tok_append.
  - apply g_str; auto using tok_append.
  - eapply g_attr; eauto using tok_append.
  - eapply g_list; eauto using tok_append.
  - apply gi_end; auto using tok_append.
  - eapply gi_cons; eauto.
Qed.

Lemma bad_joined a es k here n : Program unescape a es -> BadProgram unescape y k here n ->
  BadProgram unescape (a ++ y) k here n.
Proof.
  intros P Y. induction P as [t T|s e mid es X P IH].
  - exact (bad_program_first t T _ _ _ Y).
  - eapply bp_skip; [apply expr_append; exact X|exact IH].
Qed.

Lemma dangling_joined a es : Program unescape a es -> Dangling unescape y -> Dangling unescape (a ++ y).
Proof.
  intros P Y. induction P as [t T|s e mid es X P IH].
  - exact (dangling_first t T Y).
  - eapply d_skip; [apply expr_append; exact X|exact IH].
Qed.
End Joined.

(** ** Reading the second source further on *)

Section Further.
Variable unescape : bytes -> option bytes.
Variables id d l : nat.
Notation Tok := (Tok id).
Notation GExpr := (GExpr unescape id).
Notation GItems := (GItems unescape id).
Notation GProg := (GProg unescape id).

Definition lex_further (s : lex) : lex := Lex (l_line s + l) (l_off s + d) (l_col s) (l_rest s).
Definition token_further (tok : token) : token :=
  Token (t_kind tok) (t_value tok) (t_ws tok) (site_further d l (t_site tok)).
Definition token_spaced (w : bytes) (tok : token) : token :=
  Token (t_kind tok) (t_value tok) w (t_site tok).

Lemma adv_further k t s s' : adv k t s s' -> adv k t (lex_further s) (lex_further s').
Proof. intros (A1 & A2 & A3 & A4). repeat split; cbn; auto; lia. Qed.

Lemma site_tok k s1 s2 n :
  Site id (tok_line k (lex_further s1) (lex_further s2)) (l_off (lex_further s1)) (l_col (lex_further s1)) n =
  site_further d l (Site id (tok_line k s1 s2) (l_off s1) (l_col s1) n).
Proof. unfold site_further. destruct k; reflexivity. Qed.

Lemma tok_further s tok s2 : Tok s tok s2 -> Tok (lex_further s) (token_further tok) (lex_further s2).
Proof.
  intros (bl & w & s1 & txt & k & v & B & A1 & A2 & T & ->).
  exists bl, w, (lex_further s1), txt, k, v. rewrite site_tok.
  split; [exact B|]. split; [apply adv_further; exact A1|]. split; [apply adv_further; exact A2|]. split; [exact T|reflexivity].
Qed.

Lemma g_further :
  (forall s n s2, GExpr s n s2 -> GExpr (lex_further s) (further d l n) (lex_further s2)) /\
  (forall s ns rp s2, GItems s ns rp s2 ->
     GItems (lex_further s) (map (further d l) ns) (token_further rp) (lex_further s2)).
Proof.
  apply G_mutind; intros; cbn [further map].
  - exact (g_sym unescape id _ _ _ (tok_further _ _ _ t) e).
  - exact (g_num unescape id _ _ _ (tok_further _ _ _ t) e).
  - exact (g_str unescape id _ _ _ _ (tok_further _ _ _ t) e e0).
  - exact (g_attr unescape id _ _ _ _ _ (tok_further _ _ _ t) e H).
  - exact (g_list unescape id _ _ _ _ _ _ (tok_further _ _ _ t) e H).
  - exact (gi_end unescape id _ _ _ (tok_further _ _ _ t) e).
  - exact (gi_cons unescape id _ _ _ _ _ _ H H0).
Qed.

Lemma gprog_further s ns : GProg s ns -> GProg (lex_further s) (map (further d l) ns).
Proof.
  induction 1 as [s T|s e s1 es X P IH]; cbn [map].
  - constructor. exact T.
  - econstructor; [apply g_further; exact X|exact IH].
Qed.

(** The first token has more in front of it. *)
Section First.
Variables s s' : lex.
Variable t : bytes.
Hypothesis T : Trailing t.
Hypothesis R : l_rest s' = t ++ LF :: l_rest s.
Hypothesis C : l_col s = 0.
Hypothesis D : l_off s' + length t + 1 = l_off s + d.
Hypothesis L : l_line s' + newlines t + 1 = l_line s + l.

Lemma tok_first tok s2 : Tok s tok s2 -> exists w, Tok s' (token_spaced w (token_further tok)) (lex_further s2).
Proof.
  intros (bl & w & s1 & txt & k & v & B & A1 & A2 & TT & ->).
  destruct (lf_blank _ _ B) as [w1 B1]. destruct (blank_after t _ _ bl T B1 eq_refl) as [w' B'].
  exists w', (t ++ LF :: bl), w', (lex_further s1), txt, k, v. rewrite site_tok.
  split; [exact B'|]. split; [|split; [apply adv_further; exact A2|split; [exact TT|reflexivity]]].
  destruct A1 as (E1 & E2 & E3 & E4). repeat split; cbn.
  - rewrite R, E1, <- app_assoc. reflexivity.
  - rewrite app_length. cbn. lia.
  - rewrite col_after_app, E3, C. reflexivity.
  - rewrite newlines_app, newlines_cons, E4. cbn. lia.
Qed.

Lemma g_first n s2 : GExpr s n s2 -> exists w, GExpr s' (set_ws w (further d l n)) (lex_further s2).
Proof.
  intros X. inversion X as [s0 tok s3 K H E1 E2 E3|s0 tok s3 K H E1 E2 E3|s0 tok s3 v K H V E1 E2 E3
    |s0 tok s1 v s3 K H Y E1 E2 E3|s0 tok s1 es rp s3 K H Y E1 E2 E3]; clear E1 E2 E3;
    (destruct (tok_first _ _ K) as [w W]; exists w; cbn [further set_ws]).
  - exact (g_sym unescape id _ _ _ W H).
  - exact (g_num unescape id _ _ _ W H).
  - exact (g_str unescape id _ _ _ _ W H V).
  - exact (g_attr unescape id _ _ _ _ _ W H (proj1 g_further _ _ _ Y)).
  - exact (g_list unescape id _ _ _ _ _ _ W H (proj2 g_further _ _ _ _ Y)).
Qed.

Lemma gprog_first ms : GProg s ms -> exists w, GProg s' (spaced w (map (further d l) ms)).
Proof.
  intros P. inversion P as [s0 Z E1 E2|s0 e s1 es X Q E1 E2]; clear E1 E2.
  - exists []. constructor. rewrite R. apply trailing_first; [exact T|]. apply trailing_led. exact Z.
  - destruct (g_first _ _ X) as [w W]. exists w. cbn [map spaced]. econstructor; [exact W|].
    apply gprog_further. exact Q.
Qed.
End First.
End Further.

(** ** The end of the first source *)

Lemma tok_counts id s tok s2 : Tok id s tok s2 ->
  l_off s2 + length (l_rest s2) = l_off s + length (l_rest s) /\
  l_line s + newlines (l_rest s) <= l_line s2 + newlines (l_rest s2).
Proof.
  intros (bl & w & s1 & txt & k & v & _ & (E1 & E2 & _ & E4) & (F1 & F2 & _ & F4) & _).
  rewrite E1, F1, !app_length, !newlines_app. split; [lia|]. rewrite F4, E4. lia.
Qed.

Lemma g_counts unescape id :
  (forall s n s2, GExpr unescape id s n s2 ->
     l_off s2 + length (l_rest s2) = l_off s + length (l_rest s) /\
     l_line s + newlines (l_rest s) <= l_line s2 + newlines (l_rest s2)) /\
  (forall s ns rp s2, GItems unescape id s ns rp s2 ->
     l_off s2 + length (l_rest s2) = l_off s + length (l_rest s) /\
     l_line s + newlines (l_rest s) <= l_line s2 + newlines (l_rest s2)).
Proof.
  apply G_mutind; intros;
    repeat match goal with K : Tok _ _ _ _ |- _ => apply tok_counts in K end; intuition (try lia; congruence).
Qed.

Lemma gprog_end unescape id s ns : GProg unescape id s ns ->
  exists e, Trailing (l_rest e) /\ l_off e + length (l_rest e) = l_off s + length (l_rest s) /\
    l_line s + newlines (l_rest s) <= l_line e + newlines (l_rest e) /\
    forall z es, GProg unescape id (plus z e) es -> GProg unescape id (plus z s) (ns ++ es).
Proof.
  induction 1 as [s T|s n s1 ns X P [e [T [O [N H]]]]].
  - exists s. auto.
  - destruct (proj1 (g_counts unescape id) _ _ _ X) as [O' N']. exists e. split; [exact T|].
    split; [lia|]. split; [lia|]. intros z es Q. cbn. econstructor; [apply g_append; exact X|apply H; exact Q].
Qed.

(** ** The parser *)

Lemma lf_utf8 a z : utf8 a -> utf8 z -> utf8 (a ++ LF :: z).
Proof.
  intros A Z. apply utf8_app2; [assumption|]. apply (utf8_app2 [LF] z); [apply is_utf8; reflexivity|exact Z].
Qed.

Lemma parse_joined unescape id a ns : utf8 a -> parse unescape id a = Ok ns ->
  exists l, newlines a < l /\ forall z, utf8 z ->
  match parse unescape id z with
  | Ok ms => exists w,
      parse unescape id (a ++ LF :: z) = Ok (ns ++ spaced w (map (further (length a + 1) l) ms))
  | Err (EErr k st) => exists st', parse unescape id (a ++ LF :: z) = Err (EErr k st') /\
      s_off st' = length a + 1 + s_off st /\ s_span st' = s_span st
  | Hang => parse unescape id (a ++ LF :: z) = Hang
  | Panic _ | OutOfFuel => False
  end.
Proof.
  intros Ua A.
  assert (PA : Program unescape a (map strip ns)) by (apply (parse_grammar unescape id); eauto).
  apply parse_iff in A; [|exact Ua].
  destruct (gprog_end _ _ _ _ A) as [e [T [O [N J]]]]. cbn [lex_new l_off l_line l_rest] in O, N.
  exists (l_line e + newlines (l_rest e)). split; [lia|]. intros z Uz.
  assert (U : utf8 (a ++ LF :: z)) by (apply lf_utf8; assumption).
  pose proof (parse_returns unescape id z Uz) as R.
  destruct (parse unescape id z) as [ms|[k st]|p| |] eqn:Y; try contradiction.
  - apply parse_iff in Y; [|exact Uz].
    destruct (gprog_first unescape id (length a + 1) (l_line e + newlines (l_rest e)) (lex_new z) (plus z e)
                (l_rest e) T eq_refl eq_refl) with (ms := ms) as [w W]; [cbn [plus lex_new l_off l_line]; lia|cbn [plus lex_new l_off l_line]; lia|exact Y|].
    exists w. apply parse_iff; [exact U|]. exact (J z _ W).
  - destruct (proj1 (parse_error_iff unescape id z k (s_off st) (s_span st) Uz)) as [L B]; [eauto|].
    pose proof (bad_joined _ _ _ _ _ _ _ PA (bad_led _ _ _ _ _ B)) as B'.
    destruct (proj2 (parse_error_iff unescape id (a ++ LF :: z) k (length a + 1 + s_off st) (s_span st) U)) as [st' H].
    { split; [rewrite app_length; cbn; lia|].
      replace (skipn (length a + 1 + s_off st) (a ++ LF :: z)) with (skipn (s_off st) z); [exact B'|].
      rewrite skipn_app. rewrite (skipn_all2 a) by lia.
      replace (length a + 1 + s_off st - length a) with (S (s_off st)) by lia. reflexivity. }
    exists st'. exact H.
  - apply parse_hang_iff; [exact U|]. eapply dangling_joined; [exact PA|]. apply dangling_led.
    apply (parse_hang_iff unescape id); [exact Uz|exact Y].
Qed.

Lemma shape_further d l n : shape (further d l n) = shape n.
Proof.
  induction n as [a|a|a|a|ns st ew es w F|k v st w IH] using node_ind'; cbn; try reflexivity.
  - f_equal. rewrite map_map. induction F as [|n ns E F IH]; [reflexivity|]. cbn. rewrite E, IH. reflexivity.
  - rewrite IH. reflexivity.
Qed.

Lemma shapes_spaced w d l ns : map shape (spaced w (map (further d l) ns)) = map shape ns.
Proof.
  assert (M : map shape (map (further d l) ns) = map shape ns).
  { rewrite map_map. apply map_ext. apply shape_further. }
  rewrite <- M. destruct ns as [|n ns]; [reflexivity|]. cbn. f_equal. destruct n; reflexivity.
Qed.

Lemma all_joined unescape id ts nss :
  Forall2 (fun t ns => utf8 t /\ parse unescape id t = Ok ns) ts nss ->
  forall a ns, utf8 a -> parse unescape id a = Ok ns ->
  exists all, parse unescape id (a ++ concat (map (cons LF) ts)) = Ok all /\
    map shape all = map shape ns ++ concat (map (map shape) nss).
Proof.
  induction 1 as [|t ms ts nss [Ut T] F IH]; intros a ns Ua A; cbn [map concat].
  - exists ns. rewrite !app_nil_r. auto.
  - destruct (parse_joined unescape id a ns Ua A) as [l [_ J]]. specialize (J t Ut). rewrite T in J.
    destruct J as [w J].
    destruct (IH _ _ (lf_utf8 _ _ Ua Ut) J) as [all [P Q]].
    exists all. rewrite <- app_assoc in P. split; [exact P|]. rewrite Q, map_app, shapes_spaced, <- app_assoc. reflexivity.
Qed.
