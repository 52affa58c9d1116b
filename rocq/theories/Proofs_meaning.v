(** * The rules of the language and the expander, both directions *)

From Coq Require Import String List Ascii Bool Arith NArith ZArith Lia Permutation.
From Verif Require Import Text Utf8 Res Ast Env Scope State Parser
  Spec_keep Spec_place Proofs_place Spec_expand Spec_order Spec_loop Proofs_eval Proofs_order Proofs_loop
  Proofs_lang Proofs_realise Proofs_complete Properties_macros.
From Verif Require Import Args Expander Spec_lang.
Import ListNotations.

Lemma permuting_perm o E : permuting (with_order o E) <-> perm o.
Proof. split; intros H; exact H. Qed.

Lemma agrees_refl {A} s (r : res (A * state)) o : agrees s r o o.
Proof. destruct r as [[x s1]| | | |]; cbn; first [apply agree_refl|apply agree_from_refl]. Qed.

Section WithEnv.
Variable E : env.
Hypothesis TEXT : reads_text E.

Lemma realised (m : comp (list node)) s q : realises E m (visible s) q ->
  exists o r, permuting (with_order o E) /\ settles (fun f => m (with_order o E) f s) r /\ seen r = q.
Proof.
  intros H. destruct (H s eq_refl) as [o [r [P [V [_ S]]]]]. exists o, r. split; [exact P|].
  split; [exact (S o P (agrees_refl _ _ _))|]. rewrite seen_view. exact V.
Qed.

Theorem nodes_meaning ns s q : means_all E ns (visible s) q <->
  exists o r, permuting (with_order o E) /\ evals (with_order o E) ns s r /\ seen r = q.
Proof.
  split.
  - intros M. apply (realised (a_list ns)). destruct (complete E TEXT) as [_ [H _]]. exact (H _ _ _ M).
  - intros [o [r [P [R <-]]]]. exact (nodes_sound E o P TEXT ns s r R).
Qed.

Theorem node_meaning n s q : means E n (visible s) q <->
  exists o r, permuting (with_order o E) /\ eval (with_order o E) n s r /\ seen r = q.
Proof.
  split.
  - intros M. apply (realised (a_node n)). destruct (complete E TEXT) as [H _]. exact (H _ _ _ M).
  - intros [o [r [P [R <-]]]]. destruct R as [N [f H]]. specialize (H f (le_n f)). rewrite <- H.
    destruct (run_sound E o P TEXT f) as [A _]. refine (A n s _). unfold expand_node in H. rewrite H. exact N.
Qed.

Theorem call_meaning name cl ps s q : runs E name (c_node cl) ps (visible s) q <->
  exists o r, permuting (with_order o E) /\ invokes (with_order o E) name cl ps s r /\ seen r = q.
Proof.
  split.
  - intros M. apply (realised (a_call name cl ps)). destruct (complete E TEXT) as [_ [_ [H _]]].
    exact (H _ _ _ _ _ M cl eq_refl).
  - intros [o [r [P [R <-]]]]. destruct R as [N [f H]]. specialize (H f (le_n f)). rewrite <- H.
    destruct (run_sound E o P TEXT f) as [_ A]. refine (A name cl ps s _). unfold expand_invocation in H. rewrite H. exact N.
Qed.

Theorem program_meaning path text : utf8 text -> forall q, program_means E path text q <->
  exists o r, permuting (with_order o E) /\ settles (fun f => expand (with_order o E) f path text) r /\ seen r = q.
Proof.
  intros U q. split.
  - intros [tree r P M|x r P F]; apply syntax_iff in P; auto.
    + apply (nodes_meaning tree (initial path text)) in M as [o [r' [PO [R S]]]]. exists o, r'. split; [exact PO|].
      split; [|exact S]. destruct R as [N [f H]]. split; [exact N|]. exists f. intros f' L. unfold expand.
      change (e_unescape (with_order o E)) with (e_unescape E). rewrite P. exact (H f' L).
    + exists (fun _ l => l). unfold expand. cbn [e_unescape with_order]. rewrite P.
      destruct x; cbn in F; try contradiction; subst r; cbn [bind];
        eexists; (split; [intros ? ?; apply Permutation_refl|]);
        (split; [split; [|exists 0; reflexivity]; discriminate|reflexivity]).
  - intros [o [r [P [R <-]]]]. destruct R as [N [f H]].
    assert (X : forall f', f <= f' -> bind (parse (e_unescape E) 0 text)
      (fun tree => expand_nodes (with_order o E) f' tree (initial path text)) = r) by exact H.
    destruct (parse (e_unescape E) 0 text) as [tree|e|p| |] eqn:Q; cbn [bind] in X;
      try (apply syntax_iff in Q; [|exact U]).
    + apply (program_tree E path text tree); [exact Q|].
      apply (nodes_meaning tree (initial path text)). exists o, r. split; [exact P|]. split; [|reflexivity].
      split; [exact N|]. exists f. exact X.
    + apply (program_syntax E path text _ _ Q). rewrite <- (X f (le_n f)). reflexivity.
    + apply (program_syntax E path text _ _ Q). rewrite <- (X f (le_n f)). reflexivity.
    + apply (program_syntax E path text _ _ Q). rewrite <- (X f (le_n f)). reflexivity.
    + exfalso. apply N. symmetry. exact (X f (le_n f)).
Qed.

Lemma expand_settles f path text : expand E f path text <> OutOfFuel ->
  settles (fun f => expand E f path text) (expand E f path text).
Proof.
  intros N. split; [exact N|]. exists f. intros f' L. destruct (expand_le E f f' path text L); congruence.
Qed.
End WithEnv.

Lemma order_twice o o' E : with_order o (with_order o' E) = with_order o E.
Proof. reflexivity. Qed.

Theorem program_silent E path text : reads_text E -> utf8 text ->
  (forall q, ~ program_means E path text q) <->
  (forall o, permuting (with_order o E) -> program_diverges (with_order o E) path text).
Proof.
  intros T U. split.
  - intros H o P f. destruct (expand (with_order o E) f path text) as [x|e|p| |] eqn:R; try reflexivity; exfalso;
      (apply (H (seen (expand (with_order o E) f path text))), program_meaning; [exact T|exact U|]); exists o, (expand (with_order o E) f path text);
      (split; [exact P|]); (split; [|reflexivity]); apply expand_settles; rewrite R; discriminate.
  - intros H q M. apply program_meaning in M; [|exact T|exact U]; destruct M as [o [r [P [[N [f R]] _]]]].
    specialize (R f (le_n f)). rewrite (H o P f) in R. congruence.
Qed.

Theorem program_unique E f path text ns s : reads_text E -> utf8 text -> permuting E ->
  expand E f path text = Ok (ns, s) -> g_ordered (x_world s) = 0 ->
  forall q, program_means E path text q <-> q = Ok (ns, visible s).
Proof.
  intros T U PE R G q. split.
  - intros M. apply program_meaning in M; [|exact T|exact U]; destruct M as [o [r [P [[N [g S]] <-]]]].
    destruct (program_order_free E o f path text ns s PE P R G) as [s' [R' [[D [L [F _]]] _]]].
    assert (X : r = Ok (ns, s')).
    { destruct (expand_le (with_order o E) f (Nat.max f g) path text ltac:(lia)) as [|Q]; [congruence|].
      rewrite (S (Nat.max f g)) in Q by lia. congruence. }
    subst r. cbn [seen]. unfold visible. rewrite D, L, F. reflexivity.
  - intros ->. apply program_meaning; [exact T|exact U|]. exists (e_order E), (Ok (ns, s)). rewrite with_own_order. split; [exact PE|].
    split; [|reflexivity]. rewrite <- R. apply expand_settles. rewrite R. discriminate.
Qed.
