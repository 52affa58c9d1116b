(** * Names of lambdas *)

From Coq Require Import String List Ascii Bool Arith NArith ZArith Lia DecimalString DecimalPos DecimalZ.
From Verif Require Import Text Res Ast Env Scope State Numbers Args Parser Expander Spec_args Spec_expand Spec_builtin
  Proofs_get Proofs_data Proofs_more.
Import ListNotations.

Lemma uint_digits d c : In c (b (NilEmpty.string_of_uint d)) -> digit c <> None.
Proof.
  induction d; cbn; [intros []|..]; (intros [<-|I]; [discriminate|auto]).
Qed.
Lemma show_N_digits n c : In c (show_Z (Z.of_N n)) -> digit c <> None.
Proof.
  destruct n as [|p]; cbn; [intros [<-|[]]; discriminate|].
  unfold show_Z, NilZero.string_of_int, NilZero.string_of_uint. cbn [Z.to_int].
  destruct (Pos.to_uint p) eqn:Q; rewrite <- ?Q; try apply uint_digits.
  cbn. intros [<-|[]]; discriminate.
Qed.

Lemma b_inj x y : b x = b y -> x = y.
Proof.
  unfold b. intros H. apply (f_equal string_of_list_ascii) in H. rewrite !string_of_list_ascii_of_string in H. exact H.
Qed.
Lemma to_int_some z : Z.to_int z <> Decimal.Pos Decimal.Nil /\ Z.to_int z <> Decimal.Neg Decimal.Nil.
Proof.
  destruct z as [|p|p]; cbn; split; intros H; inversion H as [Q]; exact (DecimalPos.Unsigned.to_uint_nonnil p Q).
Qed.
Lemma show_Z_inj x y : show_Z x = show_Z y -> x = y.
Proof.
  intros H. apply b_inj in H. apply DecimalZ.to_int_inj. destruct (to_int_some x), (to_int_some y).
  apply (f_equal NilZero.int_of_string) in H. rewrite !NilZero.isi in H by assumption. congruence.
Qed.

Lemma parts_at (c : ascii) x x' y y' : ~ In c x -> ~ In c x' -> x ++ c :: y = x' ++ c :: y' -> x = x' /\ y = y'.
Proof.
  revert x'. induction x as [|d x IH]; intros [|d' x'] N N' H; cbn in H; inversion H; subst; auto.
  - destruct N'. left. reflexivity.
  - destruct N. left. reflexivity.
  - destruct (IH x') as [-> ->]; auto; intros I; [apply N|apply N']; right; exact I.
Qed.

Lemma uuid_inj E s s' st st' : uuid E s st = uuid E s' st' ->
  s_off st = s_off st' /\
  let path s st := fst (nth (s_src st) (g_sources (x_world s)) ([], [])) in
  e_hash E (path s st) (s_line st) (s_off st) (s_col st) (s_span st) =
  e_hash E (path s' st') (s_line st') (s_off st') (s_col st') (s_span st').
Proof.
  unfold uuid. intros H. cbv zeta in H |- *.
  apply parts_at in H as [H1 H2].
  - apply show_Z_inj in H1. apply show_nat_inj in H2. split; [exact H2|lia].
  - intros I. apply show_N_digits in I. apply I. reflexivity.
  - intros I. apply show_N_digits in I. apply I. reflexivity.
Qed.

Lemma lambda_name E args n s ns s1 : is_call (b "lambda") args n -> eval E n s (Ok (ns, s1)) ->
  ns = [Sym (in_place n (b "__lambda" ++ uuid E s (node_site n)))].
Proof.
  intros C H. apply (eval_lambda E args n s _ C) in H.
  destruct (positionals (received args)) as [|head l]; [destruct H as [e [H _]]; discriminate H|].
  cbv zeta in H.
  destruct head; try discriminate H; unfold bind in H;
    match type of H with _ = match ?m with _ => _ end => destruct m; inversion H; reflexivity end.
Qed.

Lemma lambda_names E args args' n n' s s' ns ns' s1 s1' :
  is_call (b "lambda") args n -> is_call (b "lambda") args' n' ->
  eval E n s (Ok (ns, s1)) -> eval E n' s' (Ok (ns', s1')) ->
  s_off (node_site n) <> s_off (node_site n') ->
  exists a a', ns = [Sym a] /\ ns' = [Sym a'] /\ a_val a <> a_val a'.
Proof.
  intros C C' H H' N. apply (lambda_name E args n s _ _ C) in H. apply (lambda_name E args' n' s' _ _ C') in H'.
  eexists _, _. split; [exact H|]. split; [exact H'|]. cbn [a_val in_place]. intros Q.
  apply app_inv_head in Q. apply uuid_inj in Q as [Q _]. contradiction.
Qed.
