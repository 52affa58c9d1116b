(** * Recursion budgets: more budget never changes a result *)

From Coq Require Import String List Ascii Bool Arith Lia.
From Verif Require Import Text Res Ast Env Scope State Args Bind Data Sorting Expander
  Spec_expand.
Import ListNotations.

(** [r'] is at least as defined as [r]. *)
Definition le_out {A} (r r' : res A) : Prop := r = OutOfFuel \/ r = r'.

Lemma le_refl {A} (r : res A) : le_out r r.
Proof. right. reflexivity. Qed.

Lemma le_bind {A B} (r r' : res A) (k k' : A -> res B) :
  le_out r r' -> (forall a, le_out (k a) (k' a)) -> le_out (bind r k) (bind r' k').
Proof.
  intros [-> | ->] K; [left; reflexivity|].
  destruct r' as [a|e|p| |]; cbn; try apply le_refl. apply K.
Qed.

Lemma le_pair {A B C} (r r' : res (A * B)) (k k' : A -> B -> res C) :
  le_out r r' -> (forall a c, le_out (k a c) (k' a c)) ->
  le_out (bind r (fun '(a, c) => k a c)) (bind r' (fun '(a, c) => k' a c)).
Proof. intros L K. apply le_bind; [exact L|]. intros [a c]. apply K. Qed.

Lemma le_in_frame {A} (m m' : state -> res (A * state)) s :
  (forall s, le_out (m s) (m' s)) -> le_out (in_frame m s) (in_frame m' s).
Proof. intros L. unfold in_frame. apply le_bind; [apply L|]. intros a. apply le_refl. Qed.

Section Mono.
Variable E : env.
Variables ex ex' : node -> state -> out.
Variables inv inv' : bytes -> call -> list node -> state -> out.
Hypothesis EX : forall n s, le_out (ex n s) (ex' n s).
Hypothesis INV : forall k c ps s, le_out (inv k c ps s) (inv' k c ps s).

Lemma le_exs ns : forall s, le_out (exs ex ns s) (exs ex' ns s).
Proof.
  induction ns as [|n ns IH]; intros s; cbn [exs]; [apply le_refl|].
  apply le_pair; [apply EX|]. intros xs s1. apply le_pair; [apply IH|]. intros. apply le_refl.
Qed.

Lemma le_eager rs c ps s : le_out (eager ex rs c ps s) (eager ex' rs c ps s).
Proof. unfold eager. apply le_pair; [apply le_exs|]. intros. apply le_refl. Qed.

Ltac mono :=
  repeat match goal with
  | |- le_out ?x ?x => apply le_refl
  | |- le_out (ex _ _) _ => apply EX
  | |- le_out (inv _ _ _ _) _ => apply INV
  | |- le_out (exs _ _ _) _ => apply le_exs
  | |- le_out (eager _ _ _ _ _) _ => apply le_eager
  | |- le_out (in_frame _ _) _ => apply le_in_frame; intros
  | |- le_out (bind _ _) (bind _ _) => apply le_bind; [|intros]
  | |- le_out (match ?x with _ => _ end) _ => destruct x
  | IH : forall s, le_out _ _ |- _ => apply IH
  | |- _ => progress intros
  end.

Lemma le_match_clauses v cl : forall s,
  le_out (match_clauses E ex v cl s) (match_clauses E ex' v cl s).
Proof. induction cl as [|c cl IH]; intros s; cbn [match_clauses]; mono. Qed.

Lemma le_for_each p items body : forall s,
  le_out (for_each E ex p items body s) (for_each E ex' p items body s).
Proof. induction items as [|i items IH]; intros s; cbn [for_each]; mono. Qed.

Lemma le_map_each d k c ns : forall s,
  le_out (map_each inv d k c ns s) (map_each inv' d k c ns s).
Proof. induction ns as [|n ns IH]; intros s; cbn [map_each]; mono. Qed.

Lemma le_sort_keys k c st ns : forall s,
  le_out (sort_keys inv k c st ns s) (sort_keys inv' k c st ns s).
Proof.
  induction ns as [|n ns IH]; intros s; cbn [sort_keys]; [apply le_refl|].
  apply le_bind.
  - destruct (INV k c [n] s) as [-> | ->]; [left; reflexivity|]. apply le_refl.
  - mono.
Qed.

Lemma le_builtin m c ps s :
  le_out (run_builtin E ex inv m c ps s) (run_builtin E ex' inv' m c ps s).
Proof.
  destruct m; cbn [run_builtin];
    unfold do_define, do_match, do_ifdef, do_do, do_get, do_text, do_convert, do_include,
      do_embed, do_namespace, do_markdown, do_yaml, do_toml, do_glob, do_for, do_sort,
      do_reverse, do_date, do_timestamp, do_join, do_concat, do_map, do_splat, do_list,
      do_strip, do_apply, do_lambda, do_log, do_format, do_env;
    mono; auto using le_match_clauses, le_for_each, le_map_each, le_sort_keys.
Qed.

Lemma le_invoke k c ps s : le_out (invoke E ex inv k c ps s) (invoke E ex' inv' k c ps s).
Proof.
  unfold invoke. destruct (find_builtin k); [apply le_builtin|].
  unfold call_macro, apply_macro. mono.
Qed.

Lemma le_expand_one n s : le_out (expand_one ex inv n s) (expand_one ex' inv' n s).
Proof. unfold expand_one. mono. Qed.
End Mono.

Lemma run_le E f : forall f' t s, f <= f' -> le_out (run E f t s) (run E f' t s).
Proof.
  induction f as [|f IH]; intros f' t s L; [left; reflexivity|].
  destruct f' as [|f']; [lia|]. cbn [run].
  destruct t; [apply le_expand_one | apply le_invoke]; intros; apply IH; lia.
Qed.

Lemma expand_nodes_le E f f' ns s :
  f <= f' -> le_out (expand_nodes E f ns s) (expand_nodes E f' ns s).
Proof. intros L. apply le_exs. intros. apply run_le. exact L. Qed.

(** ** Results independent of the budget *)

(** A family of results, one for each budget, that only gets more defined. *)
Definition growing {A} (m : nat -> res A) : Prop :=
  forall f f', f <= f' -> le_out (m f) (m f').

Lemma settles_fun {A} (m : nat -> res A) r r' : settles m r -> settles m r' -> r = r'.
Proof.
  intros [_ [f F]] [_ [g G]].
  rewrite <- (F (Nat.max f g)) by lia. apply G. lia.
Qed.

Lemma settles_at {A} (m : nat -> res A) f : growing m -> m f <> OutOfFuel -> settles m (m f).
Proof.
  intros G N. split; [exact N|]. exists f. intros f' L.
  destruct (G f f' L) as [H|H]; congruence.
Qed.

Lemma settles_const {A} (r : res A) : r <> OutOfFuel -> settles (fun _ => r) r.
Proof. intros N. split; [exact N|]. exists 0. reflexivity. Qed.

Lemma settles_ext {A} (m m' : nat -> res A) r :
  (forall f, m f = m' f) -> settles m r <-> settles m' r.
Proof.
  intros H. split; intros [N [f F]]; (split; [exact N|]); exists f; intros f' L;
    [rewrite <- H | rewrite H]; apply F, L.
Qed.

Lemma settles_S {A} (m : nat -> res A) r :
  (m 0 = OutOfFuel) -> settles m r <-> settles (fun f => m (S f)) r.
Proof.
  intros _. split; intros [N [f F]]; (split; [exact N|]).
  - exists f. intros f' L. apply F. lia.
  - exists (S f). intros [|f'] L; [lia|]. apply F. lia.
Qed.


Lemma settles_bind {A B} (m : nat -> res A) (k : nat -> A -> res B) r :
  growing m ->
  settles (fun f => bind (m f) (k f)) r <->
  (exists a, settles m (Ok a) /\ settles (fun f => k f a) r) \/
  (exists q, settles m q /\ fails q r).
Proof.
  intros G. split.
  - intros [N [f F]]. pose proof (F f (le_n f)) as Hf.
    destruct (m f) as [a|e|p| |] eqn:M; cbn in Hf.
    + left. exists a. assert (S1 : settles m (Ok a)).
      { rewrite <- M. apply settles_at; [exact G|]. rewrite M. discriminate. }
      split; [exact S1|]. split; [exact N|]. exists f. intros f' L.
      specialize (F f' L). destruct (G f f' L) as [H|H]; [congruence|].
      rewrite <- H, M in F. exact F.
    + right. exists (Err e). split; [|cbn; congruence].
      rewrite <- M. apply settles_at; [exact G|]. rewrite M. discriminate.
    + right. exists (Panic p). split; [|cbn; congruence].
      rewrite <- M. apply settles_at; [exact G|]. rewrite M. discriminate.
    + right. exists Hang. split; [|cbn; congruence].
      rewrite <- M. apply settles_at; [exact G|]. rewrite M. discriminate.
    + congruence.
  - intros [[a [[N1 [f F]] [N2 [g H]]]] | [q [[N [f F]] Q]]].
    + split; [exact N2|]. exists (Nat.max f g). intros f' L.
      rewrite F by lia. cbn. apply H. lia.
    + split; [destruct q; cbn in Q; try contradiction; subst; discriminate|].
      exists f. intros f' L. rewrite F by exact L.
      destruct q; cbn in *; try contradiction; congruence.
Qed.

Lemma growing_const {A} (r : res A) : growing (fun _ => r).
Proof. intros f f' _. apply le_refl. Qed.

Lemma growing_run E t s : growing (fun f => run E f t s).
Proof. intros f f' L. apply run_le, L. Qed.

Lemma growing_nodes E ns s : growing (fun f => expand_nodes E f ns s).
Proof. intros f f' L. apply expand_nodes_le, L. Qed.
