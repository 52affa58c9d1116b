(** * Proof of C72: expanding printed output again *)

From Coq Require Import String List Ascii Bool Arith.
From Verif Require Import Text Utf8 Res Ast Env Scope State Parser Debug Format Spec_tree Spec_print Spec_expand Spec_builtin
  Proofs_text Proofs_ast Proofs_run Proofs_eval Proofs_print Properties_parser Properties_builtins.
From Verif Require Import Args Expander.
Import ListNotations.

Section Reprint.
Variable E : env.

(** [t] gives nodes that look like [ns]. *)
Definition back (t : node) (n : node) : Prop :=
  forall s, exists n' s', eval E t s (Ok ([n'], s')) /\ strip n' = strip n.
Definition backs (t : list node) (ns : list node) : Prop :=
  forall s, exists ns' s', evals E t s (Ok (ns', s')) /\ map strip ns' = map strip ns.

Lemma backs_of t ns : Forall2 back t ns -> backs t ns.
Proof.
  induction 1 as [|x n t ns B F IH]; intros s.
  - exists [], s. split; [apply evals_nil; reflexivity|reflexivity].
  - destruct (B s) as [n' [s1 [E1 S1]]]. destruct (IH s1) as [ns' [s2 [E2 S2]]]. exists (n' :: ns'), s2. split.
    + apply evals_cons_ok. exists [n'], s1, ns'. auto.
    + cbn. rewrite S1, S2. reflexivity.
Qed.

Lemma back_list t ns st ew es w st' es' :
  (forall a rest, t = Sym a :: rest -> starts_with (b "%") (a_val a) = false) ->
  backs t ns -> back (Lst t st ew es w) (Lst ns st' ew es' w).
Proof.
  intros H B s.
  assert (P : forall s, exists ns' s',
        settles (fun f => bind (exs (fun n s => run E f (TNode n) s) t s)
                   (fun '(ns, s1) => Ok ([Lst ns st ew es w], s1))) (Ok ([Lst ns' st ew es w], s'))
        /\ map strip ns' = map strip ns).
  { intros s0. destruct (B s0) as [ns' [s1 [E1 S1]]]. exists ns', s1. split; [|exact S1].
    apply settles_then; [apply growing_exs|]. exists (Ok (ns', s1)).
    split; [exact E1|]. split; [reflexivity|discriminate]. }
  destruct t as [|h t].
  { destruct (P s) as [ns' [s1 [E1 S1]]]. exists (Lst ns' st ew es w), s1. split; [|cbn; rewrite S1; reflexivity].
    rewrite eval_unfold. exact E1. }
  destruct (symbol h) as [a|] eqn:Hs.
  - destruct h; try discriminate. cbn in Hs. inversion Hs; subst.
    destruct (P (snd (register (Lst (Sym a :: t) st ew es w) s))) as [ns' [s1 [E1 S1]]].
    exists (Lst ns' st ew es w), s1. split; [|cbn; rewrite S1; reflexivity]. rewrite eval_unfold. cbn [expand_one symbol].
    unfold register. cbn [symbol]. rewrite (H _ _ eq_refl). exact E1.
  - destruct (P s) as [ns' [s1 [E1 S1]]]. exists (Lst ns' st ew es w), s1. split; [|cbn; rewrite S1; reflexivity].
    rewrite eval_unfold. cbn [expand_one]. rewrite Hs. exact E1.
Qed.

Lemma back_raw t a : strip t = reread (Raw a) -> back t (Raw a).
Proof.
  intros Q s. destruct t as [x|x|x|x|ts st ew es w|k v st w]; try discriminate. cbn in Q. injection Q as W T EW.
  destruct ts as [|h [|v [|? ?]]]; try discriminate. cbn in T. injection T as H V.
  destruct h as [h| | | | |]; try discriminate. destruct v as [| |v| | |]; try discriminate.
  cbn in H, V. injection H as HW HV. injection V as VW VV.
  set (n := Lst [Sym h; Str v] st ew es w).
  assert (C : is_call (b "raw") [Str v] n) by (exists h, st, ew, es, w; split; [reflexivity|exact HV]).
  exists (Raw (in_place n (flat_map (fun a => a_ws a ++ a_val a) [Atom (a_val v) (a_site v) []]))), (noted n s (entered n s)).
  split.
  - apply (c30_raw E _ _ _ _ C). exists (Ok ([Str (Atom (a_val v) (a_site v) [])], entered n s)). split.
    + cbn [received leading_ws]. rewrite VW. cbn [has]. change (has LF (b " ")) with false. cbv iota. cbn [set_ws].
      apply evals_one_ok. apply eval_atom; [constructor|exact I].
    + left. eexists. split; [|reflexivity]. reflexivity.
  - cbn. rewrite app_nil_r. subst. rewrite VV. reflexivity.
Qed.

Lemma back_all n : macro_free n -> forall t, strip t = reread n -> back t n.
Proof.
  induction n as [a|a|a|a|ns st ew es w IH|k v st w IH] using node_ind'; intros M t Q.
  - destruct t as [x|x|x|x|? ? ? ? ?|? ? ? ?]; try discriminate. intros s. exists (Sym x), s. split; [|exact Q].
    apply eval_atom; [|exact I]. unfold macro_free in *. cbn in *. injection Q as _ ->. exact M.
  - destruct t; try discriminate. intros s. eexists _, s. split; [apply eval_atom; [constructor|exact I]|exact Q].
  - destruct t; try discriminate. intros s. eexists _, s. split; [apply eval_atom; [constructor|exact I]|exact Q].
  - apply back_raw, Q.
  - apply macro_free_list in M. destruct t as [x|x|x|x|ts st2 ew2 es2 w2|? ? ? ?]; try discriminate.
    cbn in Q. injection Q as W T EW. subst w2 ew2. apply back_list.
    + intros a rest ->. destruct ns as [|n ns]; [discriminate|]. cbn in T. injection T as T _. inversion M; subst.
      destruct n; try discriminate. cbn in T. injection T as _ ->. inversion H1; subst. assumption.
    + apply backs_of. revert ts T. induction IH as [|n ns B _ IHn]; intros ts T.
      * destruct ts; [constructor|discriminate].
      * destruct ts as [|t ts]; [discriminate|]. cbn in T. injection T as T1 T2. inversion M; subst.
        constructor; [apply B; assumption|apply IHn; assumption].
  - destruct t as [x|x|x|x|? ? ? ? ?|k2 v2 st2 w2]; try discriminate. cbn in Q. injection Q as W K T. subst k2 w2.
    intros s. destruct (IH M v2 T s) as [v' [s1 [E1 S1]]]. exists (Attr k v' st2 w), s1. split.
    + apply eval_attr. exists (Ok ([v'], s1)). split; [exact E1|reflexivity].
    + cbn. rewrite S1. reflexivity.
Qed.

Lemma reprinted ns t : Forall macro_free ns -> map strip t = map reread ns -> backs t ns.
Proof.
  intros M Q. apply backs_of. revert t Q. induction M as [|n ns M _ IH]; intros t Q.
  - destruct t; [constructor|discriminate].
  - destruct t as [|x t]; [discriminate|]. cbn in Q. injection Q as Q1 Q2. constructor; [apply back_all; assumption|auto].
Qed.
End Reprint.

Lemma sexp_node_strip printable n : forall n', strip n' = strip n -> sexp_node printable n' = sexp_node printable n.
Proof.
  induction n as [a|a|a|a|ns st ew es w IH|k v st w IH] using node_ind'; intros [x|x|x|x|ns2 st2 ew2 es2 w2|k2 v2 st2 w2] Q;
    try discriminate; cbn in Q.
  1-4: injection Q as W V; cbn; rewrite W, V; reflexivity.
  - injection Q as W T EW. cbn. subst. do 3 f_equal. clear -IH T. revert ns2 T.
    induction IH as [|n ns B _ IHn]; intros [|n2 ns2] T; try discriminate; [reflexivity|].
    cbn in *. injection T as T1 T2. rewrite (B _ T1), (IHn _ T2). reflexivity.
  - injection Q as W K T. cbn. subst. rewrite (IH _ T). reflexivity.
Qed.
Lemma sexp_gen_strip printable ns : forall ns', map strip ns' = map strip ns -> sexp_gen printable ns' = sexp_gen printable ns.
Proof.
  induction ns as [|n ns IH]; intros [|n' ns'] Q; try discriminate; [reflexivity|]. cbn in *. injection Q as Q1 Q2.
  rewrite (sexp_node_strip _ _ _ Q1). f_equal. apply IH, Q2.
Qed.

Theorem output_again E printable path ns :
  (forall v, utf8 v -> e_unescape E (debug_body printable v) = Some v) ->
  all_readable ns -> spaced ns -> Forall macro_free ns ->
  exists ns' s f, expand E f path (sexp_gen printable ns) = Ok (ns', s) /\
    map strip ns' = map strip ns /\ sexp_gen printable ns' = sexp_gen printable ns.
Proof.
  intros H R S M. destruct (sexp_parse printable (e_unescape E) H 0 ns R S) as [t [P Q]].
  destruct (reprinted E ns t M Q (initial path (sexp_gen printable ns))) as [ns' [s [[_ [f F]] Q']]].
  exists ns', s, f. split; [|split; [exact Q'|apply sexp_gen_strip, Q']].
  unfold expand. rewrite P. cbn [bind]. exact (F f (le_n f)).
Qed.
