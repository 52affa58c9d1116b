(** * Plain text of parsed sources *)

From Coq Require Import String List Ascii Bool Arith NArith Lia.
From Verif Require Import Text Utf8 Res Lexer Ast Parser Debug Format Spec_grammar Spec_tree
  Spec_print Proofs_text Proofs_lexer Proofs_token Proofs_ast Proofs_parser Proofs_print.
Import ListNotations.

Fixpoint splain (t : stree) : bytes :=
  match t with
  | SSym w v | SNum w v | SStr w v | SRaw w v => w ++ v
  | SAttr w k v => w ++ b ":" ++ k ++ splain v
  | SList w ts ew => w ++ b "(" ++ flat_map splain ts ++ ew ++ b ")"
  end.

Lemma text_strip : forall n, text_node n = splain (strip n).
Proof.
  induction n using node_ind'; simpl; auto.
  - do 2 f_equal. f_equal. induction H; simpl; auto. congruence.
  - congruence.
Qed.

(** No comment or escape. *)
Definition quoting (c : ascii) : Prop := c <> ";"%char /\ c <> BS.

Lemma blank_quoting : forall bl w, Blank bl w -> Forall quoting bl -> bl = w.
Proof.
  intros bl w B F. destruct B; auto. apply Forall_app in F as [_ F]. inversion F; subst.
  destruct H3. congruence.
Qed.
Lemma unbackslash_quoting : forall t, Forall quoting t -> unbackslash t = t.
Proof.
  induction 1 as [|c t [_ H] F IH]; simpl; auto.
  apply ch_neq in H. rewrite H. simpl. rewrite IH. reflexivity.
Qed.
Lemma unquoted_app : forall x y, unquoted (x ++ y) = unquoted x ++ unquoted y.
Proof. intros. apply filter_app. Qed.
Ltac fall' := repeat match goal with
  | H : Forall quoting (_ ++ _) |- _ => apply Forall_app in H as [? ?]
  | H : Forall quoting (_ :: _) |- _ => inversion H; clear H; subst
  end.

Section Unescape.
Variable unescape : bytes -> option bytes.
Hypothesis PLAIN : forall t, ~ In BS t -> unescape t = Some t.

Lemma quoting_value : forall t v, Forall quoting t -> unescape t = Some v -> v = t.
Proof.
  intros t v F H. rewrite PLAIN in H; [congruence|]. intros I. rewrite Forall_forall in F.
  destruct (F _ I). congruence.
Qed.

Lemma expr_plain :
  (forall x e rest, Expr unescape x e rest -> Forall quoting x ->
     unquoted x = unquoted (splain e) ++ unquoted rest /\ Forall quoting rest) /\
  (forall x es ew rest, Items unescape x es ew rest -> Forall quoting x ->
     unquoted x = unquoted (flat_map splain es ++ ew ++ b ")") ++ unquoted rest /\ Forall quoting rest).
Proof.
  apply E_mutind; intros; unfold quote3 in *; fall'.
  - rewrite (blank_quoting bl w) by auto. rewrite unbackslash_quoting by (constructor; auto).
    cbn [splain]. rewrite <- unquoted_app, app_assoc. auto.
  - rewrite (blank_quoting bl w) by auto. rewrite unbackslash_quoting by (constructor; auto).
    cbn [splain]. rewrite <- unquoted_app, app_assoc. auto.
  - rewrite (blank_quoting bl w) by auto.
    match goal with H : unescape _ = Some _ |- _ => apply quoting_value in H; [|assumption]; subst v end.
    split; [|assumption]. cbn [splain]. change (DQ :: t ++ DQ :: rest) with ([DQ] ++ t ++ [DQ] ++ rest).
    rewrite !unquoted_app. change (unquoted [DQ]) with (@nil ascii). rewrite <- app_assoc. reflexivity.
  - rewrite (blank_quoting bl w) by auto.
    match goal with H : unescape _ = Some _ |- _ => apply quoting_value in H; [|assumption]; subst v end.
    split; [|assumption]. cbn [splain]. rewrite !unquoted_app.
    change (unquoted [DQ; DQ; DQ]) with (@nil ascii). rewrite <- app_assoc. reflexivity.
  - rewrite (blank_quoting bl w) by auto. destruct H as [H F]; auto. split; auto.
    cbn [splain]. change (":"%char :: t ++ mid) with (Text.b ":"%string ++ t ++ mid).
    rewrite !unquoted_app, H, <- !app_assoc. reflexivity.
  - rewrite (blank_quoting bl w) by auto. destruct H as [H F]; auto. split; auto.
    cbn [splain]. change ("("%char :: mid) with (Text.b "("%string ++ mid).
    rewrite !unquoted_app, H, !unquoted_app, <- !app_assoc. reflexivity.
  - rewrite (blank_quoting bl w) by auto. split; auto.
    cbn [flat_map app]. change (")"%char :: rest) with (Text.b ")"%string ++ rest).
    rewrite !unquoted_app, <- !app_assoc. reflexivity.
  - destruct (H H1) as [E F]. destruct (H0 F) as [E' F']. split; auto.
    rewrite E, E'. cbn [flat_map]. rewrite !unquoted_app, <- !app_assoc. reflexivity.
Qed.

Lemma program_plain : forall x es, Program unescape x es -> Forall quoting x ->
  exists tail, Forall blank_char tail /\ unquoted x = unquoted (flat_map splain es) ++ tail.
Proof.
  intros x es H. induction H as [t T|x e mid es HE HP IH]; intros F.
  - destruct T as [t w B|t w body B N].
    + rewrite (blank_quoting t w B F) in *. exists w. assert (FB : Forall blank_char w).
      { destruct B; auto. fall'. match goal with H : quoting ";"%char |- _ => destruct H; congruence end. }
      split; [exact FB|]. cbn [flat_map]. unfold unquoted at 2. cbn [filter app].
      clear -FB. induction FB as [|c w H _ IH]; [reflexivity|]. unfold unquoted in *. cbn [filter].
      rewrite IH. destruct H as [->|[->|[->| ->]]]; reflexivity.
    + fall'. match goal with H : quoting ";"%char |- _ => destruct H; congruence end.
  - destruct (proj1 expr_plain _ _ _ HE F) as [E F'].
    destruct (IH F') as (tail & FB & E2). exists tail. split; auto. rewrite E, E2. cbn [flat_map].
    rewrite unquoted_app, <- app_assoc. reflexivity.
Qed.

Theorem parse_text : forall id src ns, utf8 src -> Forall quoting src ->
  parse unescape id src = Ok ns ->
  exists tail, Forall blank_char tail /\ unquoted src = unquoted (text_gen ns) ++ tail.
Proof.
  intros id src ns U F P.
  assert (PG : Program unescape src (map strip ns)) by (apply (parse_grammar unescape id); eauto).
  destruct (program_plain _ _ PG F) as (tail & FB & E). exists tail. split; auto.
  rewrite E. f_equal. f_equal. unfold text_gen. clear. induction ns; simpl; auto. rewrite text_strip. congruence.
Qed.
End Unescape.

Lemma text_sexp printable n : text_node n = sexp_node printable (unstrung n).
Proof.
  induction n using node_ind'; simpl; auto.
  - do 2 f_equal. f_equal. induction H; simpl; auto. congruence.
  - congruence.
Qed.
Lemma text_sexps printable t : text_gen t = sexp_gen printable (map unstrung t).
Proof.
  unfold text_gen, sexp_gen. induction t; simpl; auto. rewrite (text_sexp printable). congruence.
Qed.
