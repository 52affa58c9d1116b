(** * Proofs about imports of any document and listings of any files *)

From Coq Require Import String List Ascii Bool Arith NArith ZArith.
From Verif Require Import Text Res Ast Env Scope State Args Bind Numbers Paths Sorting Data Expander
  Spec_args Spec_bind Spec_expand Spec_builtin Spec_scope Spec_sort Spec_data Spec_world Spec_events
  Proofs_eval Proofs_data Proofs_world Proofs_collect Proofs_events Proofs_import.
Import ListNotations.

Section WithEnv.
Variable E : env.

Theorem yaml_stream name args n s vs s1 text sep q :
  name = b "yaml" \/ name = b "json" -> is_call name args n ->
  evals E (received args) (entered n s) (Ok (vs, s1)) -> imported vs text sep ->
  YamlText E text sep (node_site n) (x_defs s1) q -> comes_of E n s s1 q.
Proof.
  intros NM C V [p [a [P [L [O [-> ->]]]]]] Y. pose proof (yaml_text _ _ _ _ _ _ Y) as X.
  assert (H : forall r, r = (let* '(q, defs) := q in
         let* ns := q in Ok (ns, touch (ref n s) (set_defs defs (noted n s s1)))) -> r <> OutOfFuel -> eval E n s r).
  { intros r -> N. apply (eval_yaml E name args n s _ NM C). eexists. split; [exact V|]. left. exists p, a.
    rewrite X. auto. }
  destruct Y as [es s0 _ _|es s0 _ _|es ok q _ _]; cbn [comes_of].
  - eexists. split; [apply H; [reflexivity|discriminate]|]. rewrite touch_defs. split; [reflexivity|].
    eapply quiet_trans; [apply quiet_touch|]. eapply quiet_trans; [apply quiet_defs|]. apply quiet_touch.
  - apply H; [reflexivity|discriminate].
  - apply H; [reflexivity|discriminate].
Qed.
Theorem yaml_every text sep st d : exists! q, YamlText E text sep st d q.
Proof.
  exists (expand_yaml E text sep st d). split; [apply yaml_text_iff; reflexivity|].
  intros q Y. apply yaml_text_iff, Y.
Qed.

Theorem toml_exact args n s vs s1 text sep q :
  is_call (b "toml") args n ->
  evals E (received args) (entered n s) (Ok (vs, s1)) -> imported vs text sep ->
  TomlText E text sep (node_site n) (x_defs s1) q -> comes_of E n s s1 (Ok q).
Proof.
  intros C V [p [a [P [L [O [-> ->]]]]]] Y. pose proof (proj2 (toml_text_iff _ _ _ _ _ _) Y) as X.
  assert (H : forall r, r = (let '(q, defs) := q in
         let* ns := q in Ok (ns, touch (ref n s) (set_defs defs (noted n s s1)))) -> r <> OutOfFuel -> eval E n s r).
  { intros r -> N. apply (eval_toml E args n s _ C). eexists. split; [exact V|]. left. exists p, a.
    rewrite X. auto. }
  destruct Y as [t x _|_]; cbn [comes_of].
  - eexists. split; [apply H; [reflexivity|discriminate]|]. rewrite touch_defs. split; [reflexivity|].
    eapply quiet_trans; [apply quiet_touch|]. eapply quiet_trans; [apply quiet_defs|]. apply quiet_touch.
  - apply H; [reflexivity|discriminate].
Qed.

Theorem listed_any args n s vs s1 pat t k up l all cmp out :
  is_call (b "glob") args n -> evals E (received args) (entered n s) (Ok (vs, s1)) -> listing_args vs pat t k up ->
  e_glob E (a_val pat) = Some l -> all_found l = Some all ->
  compares_by k cmp -> collected E cmp (listing t all) out ->
  eval E n s (Ok (path_nodes (a_site pat) (if up then out else rev out), noted n s s1)).
Proof.
  intros C V A G F K H. apply (glob_answer E args n s vs s1 pat t k up _ C V A). rewrite G. constructor.
  rewrite (collect_all E t k l all F). do 2 f_equal. apply collect_iff.
  apply (collected_ext E cmp); [|exact H]. intros x y. apply compares_unique, K.
Qed.
Theorem compares_only k : exists cmp, compares_by k cmp /\ forall cmp', compares_by k cmp' -> forall x y, cmp' x y = cmp x y.
Proof. exists (found_cmp k). split; [apply found_cmp_by|apply compares_unique]. Qed.
Theorem collected_only {A} (cmp : A -> A -> comparison) l : exists! out, collected E cmp l out.
Proof.
  exists (bt_collect E cmp l). split; [apply collect_iff; reflexivity|]. intros o H. apply collect_iff, H.
Qed.
End WithEnv.
