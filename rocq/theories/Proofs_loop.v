(** * Proofs about termination and divergence *)

From Coq Require Import String List Ascii Bool Arith Lia Permutation.
From Verif Require Import Text Res Ast Env Scope State Args Bind Parser Paths Expander
  Spec_args Spec_expand Spec_builtin Spec_bind Spec_scope Spec_loop Proofs_text Proofs_ast Proofs_run Proofs_eval
  Proofs_bind Proofs_control Proofs_macros Proofs_scope.
Import ListNotations.

(** ** Budgets *)

Theorem expand_le E f f' path text : f <= f' -> le_out (expand E f path text) (expand E f' path text).
Proof.
  intros L. unfold expand. destruct (parse (e_unescape E) 0 text); try apply le_refl. apply expand_nodes_le, L.
Qed.

Lemma settled_or {A} (m : nat -> res A) r f : growing m -> settles m r -> m f = OutOfFuel \/ m f = r.
Proof.
  intros G [N [g H]]. destruct (G f (Nat.max f g) ltac:(lia)) as [K|K]; [left; exact K|right].
  rewrite K. apply H. lia.
Qed.

(** ** Macro-free trees *)

Section WithEnv.
Variable E : env.

Lemma free_within n : macro_free n -> forall f s, depth n <= f ->
  exists s', run E f (TNode n) s = Ok ([n], s') /\ same_but_vec s s'.
Proof.
  induction n as [a|a|a|a|ns st ew es w IH|k v st w IH] using node_ind'; intros M f s L;
    (destruct f as [|f]; [cbn in L; lia|]); cbn [run expand_one].
  1-4: eexists; (split; [|apply same_refl]).
  - inversion M; subst. rewrite H1. reflexivity.
  - reflexivity.
  - reflexivity.
  - reflexivity.
  - apply macro_free_list in M. cbn [depth] in L. apply Nat.succ_le_mono in L.
    assert (P : forall ns s, Forall macro_free ns -> Forall (fun n => macro_free n -> forall f s, depth n <= f ->
        exists s', run E f (TNode n) s = Ok ([n], s') /\ same_but_vec s s') ns -> fold_right Nat.max 0 (map depth ns) <= f ->
        exists s', exs (fun n s => run E f (TNode n) s) ns s = Ok (ns, s') /\ same_but_vec s s').
    { clear. induction ns as [|n ns IH]; intros s M H L; [exists s; split; [reflexivity|apply same_refl]|].
      inversion M; subst. inversion H; subst. cbn [map fold_right] in L. cbn [exs].
      destruct (H4 H2 f s ltac:(lia)) as [s1 [R1 S1]]. rewrite R1. cbn [bind].
      destruct (IH s1 H3 H5 ltac:(lia)) as [s2 [R2 S2]]. rewrite R2. exists s2. split; [reflexivity|].
      eapply same_trans; eassumption. }
    destruct ns as [|h t]; [eexists; split; [reflexivity|apply same_refl]|].
    destruct (symbol h) as [a|] eqn:Hs.
    + unfold register. destruct h; try discriminate. inversion Hs; subst.
      assert (A : starts_with (b "%") (a_val a) = false).
      { inversion M; subst. inversion H1; subst. assumption. }
      rewrite A. destruct (P (Sym a :: t) (State (x_defs s) (vec_push (x_vec s)) (x_world s)) M IH L) as [s1 [R S1]].
      rewrite R. exists s1. split; [reflexivity|exact S1].
    + destruct (P (h :: t) s M IH L) as [s1 [R S1]]. rewrite R. exists s1. split; [reflexivity|exact S1].
  - cbn [depth] in L. destruct (IH M f s ltac:(lia)) as [s1 [R S1]]. rewrite R. exists s1. split; [reflexivity|exact S1].
Qed.

Theorem free_program f path text tree : parse (e_unescape E) 0 text = Ok tree -> Forall macro_free tree ->
  Forall (fun n => depth n <= f) tree -> exists s, expand E f path text = Ok (tree, s).
Proof.
  intros P M L. unfold expand. rewrite P. cbn [bind]. unfold expand_nodes. generalize (initial path text) as s. clear P.
  induction tree as [|n ns IH]; intros s; [exists s; reflexivity|]. inversion M; subst. inversion L; subst. cbn [exs].
  unfold expand_node at 1. destruct (free_within n H1 f s H3) as [s1 [-> _]]. cbn [bind].
  destruct (IH H2 H4 s1) as [s2 ->]. exists s2. reflexivity.
Qed.

(** ** Divergence *)

Lemma free_run ns f s : Forall macro_free ns ->
  expand_nodes E f ns s = OutOfFuel \/ exists s', expand_nodes E f ns s = Ok (ns, s') /\ same_but_vec s s'.
Proof.
  intros M. destruct (evals_macro_free E ns M s) as [s' [V S]].
  destruct (settled_or _ _ f (growing_nodes E ns s) V) as [H|H]; [left; exact H|right; eauto].
Qed.

Lemma leads_out (P : node -> Prop) f ns (Q : state -> Prop) s : leads_to P ns ->
  (forall s s', same_but_vec s s' -> Q s -> Q s') -> Q s ->
  (forall n s, P n -> Q s -> run E f (TNode n) s = OutOfFuel) ->
  expand_nodes E f ns s = OutOfFuel.
Proof.
  intros [before [n [after [-> [M H]]]]] K S R. revert s S. induction before as [|x before IH]; intros s S.
  - cbn [app]. unfold expand_nodes. cbn [exs]. unfold expand_node at 1. rewrite (R n s H S). reflexivity.
  - inversion M; subst. cbn [app]. unfold expand_nodes. cbn [exs].
    destruct (free_run [x] f s ltac:(repeat constructor; assumption)) as [O|[s' [O S']]];
      unfold expand_nodes in O; cbn [exs] in O; destruct (expand_node E f x s) as [[ys s1]| | | |]; try discriminate O; cbn [bind] in *;
      [reflexivity|].
    inversion O; subst. pose proof (IH H3 s' (K _ _ S' S)) as R'. unfold expand_nodes in R'. rewrite R'. reflexivity.
Qed.

Lemma macro_free_ws n w : macro_free n -> macro_free (set_ws w n).
Proof. destruct n; exact (fun H => H). Qed.
Lemma macro_free_received args : Forall macro_free args -> Forall macro_free (received args).
Proof.
  intros M. destruct args as [|x args]; [constructor|]. inversion M; subst. constructor; [|assumption].
  destruct (has LF (leading_ws x)); [assumption|apply macro_free_ws; assumption].
Qed.


Theorem macro_diverges (m : macro) name : (forall seed l, Permutation (e_order E seed l) l) -> find_builtin name = None ->
  ~ In name (flat_map param_variables (m_params m)) ->
  leads_to (calls m name) (m_body m) ->
  forall f n s, calls m name n -> get name (x_defs s) = Some m -> run E f (TNode n) s = OutOfFuel.
Proof.
  intros ORDER B V L f. induction f as [f IH] using lt_wf_ind. intros n s [args [l [C [M BL]]]] G.
  destruct f as [|f]; [reflexivity|]. destruct C as [a [st [ew [es [w [-> A]]]]]].
  cbn [run expand_one symbol]. unfold register. rewrite A. change (starts_with (b "%") (b "%" ++ name)) with true. cbv beta iota.
  change (skipn 1 (b "%" ++ name)) with name.
  destruct f as [|f]; [reflexivity|]. cbn [run]. unfold invoke. rewrite B. unfold call_macro.
  change (trim_first args) with (received args).
  match goal with |- bind (exs _ _ ?s0) _ = _ => set (s0' := s0) end.
  destruct (free_run (received args) f s0' (macro_free_received _ M)) as [O|[s1 [O S1]]];
    unfold expand_nodes, expand_node in O; rewrite O; [reflexivity|]. cbn [bind].
  destruct S1 as [S1 _]. unfold s0' in S1. cbn [x_defs] in S1.
  rewrite <- S1 in G. rewrite G. unfold apply_macro, in_frame.
  destruct (bind_list_cases E ORDER (call_site (Call (Lst (Sym a :: args) st ew es w) (v_gen (vec_push (x_vec s)))))
    (m_params m) (received args) (State (x_defs s1) (vec_clone (x_vec s1)) (x_world s1)))
    as [[s2 [l2 [H2 [H3 [H4 _]]]]]|[H2 _]]; [|exfalso; eapply H2, BL].
  rewrite H2. cbn [bind]. assert (G2 : get name (x_defs s2) = Some m).
  { rewrite <- G. apply (bind_others E ORDER _ _ _ _ _ H2 name V). }
  pose proof (leads_out _ f (m_body m) (fun s => get name (x_defs s) = Some m) s2 L) as R.
  unfold expand_nodes, expand_node in R. rewrite R; [reflexivity| |exact G2|].
  - intros x y [D _] Hx. rewrite D. exact Hx.
  - intros x y Px Qy. apply IH; [lia|exact Px|exact Qy].
Qed.

Theorem variable_diverges (m : macro) name : m_params m = [] -> leads_to (uses name) (m_body m) ->
  forall f n s, uses name n -> get name (x_defs s) = Some m -> run E f (TNode n) s = OutOfFuel.
Proof.
  intros P L f. induction f as [|f IH]; intros n s U G; [reflexivity|]. destruct U as [a [-> A]].
  cbn [run expand_one]. rewrite A. change (starts_with (b "%") (b "%" ++ name)) with true. cbv beta iota.
  change (skipn 1 (b "%" ++ name)) with name. rewrite G, P.
  pose proof (leads_out _ f (m_body m) (fun s => get name (x_defs s) = Some m) s L) as R.
  unfold expand_nodes, expand_node in R. rewrite R; [reflexivity| |exact G|].
  - intros x y [D _] Hx. rewrite D. exact Hx.
  - intros x y Px Qy. apply IH; [exact Px|exact Qy].
Qed.

Theorem include_diverges file p text : first_readable E (candidates true (e_includes E) file) p text ->
  (forall id, exists tree, parse (e_unescape E) id text = Ok tree /\ leads_to (includes file) tree) ->
  forall f n s, includes file n -> run E f (TNode n) s = OutOfFuel.
Proof.
  intros R T f. induction f as [f IH] using lt_wf_ind. intros n s [x [at_ [C [M [A V]]]]].
  destruct f as [|f]; [reflexivity|]. destruct C as [a [st [ew [es [w [-> Q]]]]]].
  cbn [run expand_one symbol]. unfold register. rewrite Q. change (starts_with (b "%") (b "%" ++ b "include")) with true. cbv beta iota.
  change (skipn 1 (b "%" ++ b "include")) with (b "include").
  destruct f as [|f]; [reflexivity|]. cbn [run]. change (invoke E ?x ?y (b "include")) with (do_include E x). unfold do_include.
  change (trim_first [x]) with (received [x]).
  match goal with |- bind (exs _ _ ?s0) _ = _ => set (s0' := s0) end.
  destruct (free_run (received [x]) f s0' (macro_free_received [x] ltac:(repeat constructor; exact M))) as [O|[s1 [O S1]]];
    unfold expand_nodes, expand_node in O; rewrite O; [reflexivity|]. cbn [bind received].
  assert (A' : exists a', atomic (if has LF (leading_ws x) then x else set_ws [] x) = Some a' /\ a_val a' = file).
  { destruct (has LF (leading_ws x)); [eauto|]. destruct x; inversion A; subst; cbn; eauto. }
  destruct A' as [a' [-> A']]. rewrite A'.
  pose proof (search_first E true file (e_includes E)) as SF.
  destruct (search_file E true (e_includes E) file) as [[p' text']|]; cbn in SF.
  2: { destruct R as [b1 [b2 [R1 [_ R2]]]]. fold (candidates true (e_includes E) file) in SF. rewrite R1 in SF.
       apply Forall_app in SF as [_ SF]. inversion SF. congruence. }
  destruct (first_readable_fun _ _ _ _ _ _ SF R) as [-> ->].
  destruct (add_source p text s1) as [id s2]. destruct (T id) as [tree [PT L]]. rewrite PT.
  pose proof (leads_out _ f tree (fun _ => True) s2 L) as RR. unfold expand_nodes, expand_node in RR.
  rewrite RR; [reflexivity|auto|exact I|]. intros y z Py _. apply IH; [lia|exact Py].
Qed.

(** A program that comes to such a node. *)
Lemma program_out path text tree before n after ns s : parse (e_unescape E) 0 text = Ok tree ->
  tree = before ++ n :: after -> evals E before (initial path text) (Ok (ns, s)) -> diverges E n s ->
  program_diverges E path text.
Proof.
  intros P -> V D f. unfold expand. rewrite P. cbn [bind].
  assert (X : forall l s0, expand_nodes E f (l ++ n :: after) s0 = bind (expand_nodes E f l s0) (fun '(xs, s1) =>
      bind (expand_nodes E f (n :: after) s1) (fun '(ys, s2) => Ok (xs ++ ys, s2)))).
  { induction l as [|x l IH]; intros s0; unfold expand_nodes in *; cbn [app exs].
    - cbn [bind]. destruct (expand_node E f n s0) as [[u v]| | | |]; cbn; try reflexivity.
      destruct (exs (expand_node E f) after v) as [[u' v']| | | |]; reflexivity.
    - destruct (expand_node E f x s0) as [[u v]| | | |]; cbn; try reflexivity. rewrite IH.
      destruct (exs (expand_node E f) l v) as [[u1 v1]| | | |]; cbn; try reflexivity.
      destruct (expand_node E f n v1) as [[u2 v2]| | | |]; cbn; try reflexivity.
      destruct (exs (expand_node E f) after v2) as [[u' v']| | | |]; cbn; try reflexivity. rewrite app_assoc. reflexivity. }
  rewrite X. destruct (settled_or _ _ f (growing_nodes E before (initial path text)) V) as [-> | ->]; [reflexivity|].
  cbn [bind]. unfold expand_nodes. cbn [exs]. rewrite D. reflexivity.
Qed.
End WithEnv.
