(** * Consequences of what expansion preserves *)

From Coq Require Import String List Ascii Bool Arith NArith ZArith Lia Permutation.
From Verif Require Import Text Lossy Proofs_lossy Utf8 Res Ast Env Scope State Bind Numbers Data Expander Parser Lexer
  Spec_grammar Spec_tree Spec_tokens Spec_args Spec_expand Spec_bind Spec_control
  Proofs_text Proofs_ast Proofs_parser Proofs_pos Proofs_fields Proofs_run Spec_builtin
  Proofs_eval Proofs_control Proofs_more Proofs_scope Proofs_macros Spec_keep Proofs_keep.
Import ListNotations.

(** ** Nothing is ever undone *)

Definition any {A} (_ : A) : Prop := True.
Definition anys {A B} (_ : A) (_ : B) : Prop := True.

Lemma good_any N n : good any any anys N n.
Proof.
  induction n as [a|a|a|a|ns st ew es w IH|k v st w IH] using node_ind'; cbn; repeat split.
  - apply fold_and, IH.
  - exact IH.
Qed.
Lemma goods_any N ns : Forall (good any any anys N) ns.
Proof. apply Forall_forall. intros n _. apply good_any. Qed.
Lemma state_any s : good_state any any anys any s.
Proof.
  split; [split; [exact I|]|intros k m _; split; apply goods_any].
  apply Forall_forall. intros line _. split; exact I.
Qed.
Lemma toml_any v : good_toml any v.
Proof.
  induction v as [s|z|s|s|x|l IH|l IH] using toml_ind'; cbn; try exact I.
  - apply fold_and, IH.
  - apply fold_and. eapply Forall_impl; [|exact IH]. intros [k v] H. split; [exact I|exact H].
Qed.
Lemma respects_any E : respected any any anys any E.
Proof. constructor; intros; try exact I; [apply goods_any|apply toml_any]. Qed.

Lemma run_later E f t s ns s' : run E f t s = Ok (ns, s') -> later s s'.
Proof.
  intros H. pose proof (run_post any any anys any E (respects_any E) f t s (state_any s)) as P.
  rewrite H in P. apply P. destruct t; cbn; auto using good_any, goods_any.
Qed.
Lemma nodes_later E f l s ns s' : expand_nodes E f l s = Ok (ns, s') -> later s s'.
Proof.
  intros H. pose proof (expand_nodes_post any any anys any E (respects_any E) f l s (state_any s) (goods_any _ _)) as P.
  rewrite H in P. apply P.
Qed.
Lemma settles_some {A} (m : nat -> res A) r : settles m r -> exists f, m f = r.
Proof. intros [_ [f F]]. exists f. apply F. lia. Qed.
Lemma eval_later E n s ns s' : eval E n s (Ok (ns, s')) -> later s s'.
Proof. intros H. apply settles_some in H as [f H]. exact (run_later _ _ _ _ _ _ H). Qed.
Lemma evals_later E l s ns s' : evals E l s (Ok (ns, s')) -> later s s'.
Proof. intros H. apply settles_some in H as [f H]. exact (nodes_later _ _ _ _ _ _ H). Qed.
Lemma bind_list_later E st ps vs s s' : bind_list E st ps vs s = Ok s' -> later s s'.
Proof.
  intros H. pose proof (bind_list_after any any anys any E st ps vs s (state_any s) I
    (goods_any _ _) (goods_any _ _)) as P. rewrite H in P. apply P.
Qed.
Lemma bind_node_later E p v s s' : bind_node E p v s = Ok s' -> later s s'.
Proof.
  intros H. pose proof (bind_node_after any any anys any E p v s (state_any s)
    (good_any _ _) (good_any _ _)) as P. rewrite H in P. apply P.
Qed.

(** ** From good nodes to lists of fields *)

Section Fields.
Variable okv okw : bytes -> Prop.
Variable oks : sources -> site -> Prop.
Lemma good_fields N n : good okv okw oks N n <->
  Forall okv (values n) /\ Forall okw (ws_fields n) /\ Forall (oks N) (node_sites n).
Proof.
  induction n as [a|a|a|a|ns st ew es w IH|k v st w IH] using node_ind'.
  1-4: cbn; unfold good_atom; split;
    [intros [A [B C]]; auto|intros [A [B C]]; inversion A; inversion B; inversion C; subst; auto].
  - rewrite good_lst. cbn [values ws_fields node_sites].
    assert (K : Forall (good okv okw oks N) ns <->
      Forall okv (flat_map values ns) /\ Forall okw (flat_map ws_fields ns) /\ Forall (oks N) (flat_map node_sites ns)).
    { induction IH as [|n ns H _ IHns]; cbn; [repeat split; constructor|].
      rewrite !Forall_app, Forall_cons_iff, H, IHns. tauto. }
    rewrite K, !Forall_cons_iff. tauto.
  - cbn. rewrite IH, !Forall_cons_iff. tauto.
Qed.
Lemma goods_fields N ns : Forall (good okv okw oks N) ns <->
  Forall okv (flat_map values ns) /\ Forall okw (flat_map ws_fields ns) /\ Forall (oks N) (flat_map node_sites ns).
Proof.
  induction ns as [|n ns IH]; cbn; [repeat split; constructor|].
  rewrite Forall_cons_iff, good_fields, IH, !Forall_app. tauto.
Qed.
End Fields.

Lemma texts_good v : Forall utf8 (toml_texts v) -> good_toml utf8 v.
Proof.
  induction v as [s|z|s|s|x|l IH|l IH] using toml_ind'; cbn; intros H; try exact I;
    try (inversion H; assumption).
  - apply fold_and. induction IH as [|v l Hv _ IHl]; constructor; cbn in H; apply Forall_app in H; [apply Hv|apply IHl]; tauto.
  - apply fold_and. induction IH as [|[k v] l Hv _ IHl]; constructor; cbn in H; rewrite Forall_cons_iff, Forall_app in H.
    + split; [tauto|apply Hv; tauto].
    + apply IHl. tauto.
Qed.

Definition plain (s : bytes) : Prop := Forall (fun c => (nat_of_ascii c < 128)%nat) s.
Lemma plain_utf8 s : plain s -> utf8 s.
Proof.
  induction 1 as [|c s H _ IH]; [constructor|]. apply (utf8_app [c]); [|exact IH]. cbn. unfold between.
  apply Nat.leb_le. lia.
Qed.
Lemma plain_b s : forallb (fun c => nat_of_ascii c <? 128)%nat (b s) = true -> plain (b s).
Proof.
  intros H. apply Forall_forall. intros c I. rewrite forallb_forall in H. apply Nat.ltb_lt, H, I.
Qed.
Lemma plain_uint u : plain (b (DecimalString.NilEmpty.string_of_uint u)).
Proof. induction u; cbn; constructor; try assumption; vm_compute; lia. Qed.
Lemma plain_uint0 u : plain (b (DecimalString.NilZero.string_of_uint u)).
Proof. destruct u; [repeat constructor; vm_compute; lia|apply plain_uint..]. Qed.
Lemma plain_nat n : plain (show_nat n).
Proof. apply plain_uint0. Qed.
Lemma plain_Z z : plain (show_Z z).
Proof.
  unfold show_Z. destruct (Z.to_int z); cbn [DecimalString.NilZero.string_of_int]; [apply plain_uint0|].
  cbn. constructor; [vm_compute; lia|apply plain_uint0].
Qed.

(** ** Whitespace is blank *)

Definition all_text (N : sources) : Prop := Forall (fun x => utf8 (snd x)) N.

Lemma respects_blank E : reads_text E -> respected any (Forall blank_char) anys all_text E.
Proof.
  intros T. constructor; intros; try exact I; try (repeat constructor; fail).
  - apply Forall_app. split; [assumption|]. constructor; [|constructor]. eapply T; eassumption.
  - apply goods_fields. split; [apply Forall_forall; intros; exact I|].
    split; [|apply Forall_forall; intros; exact I].
    eapply parse_ws; [|eassumption]. apply Forall_app in H1 as [_ H1]. inversion H1; assumption.
  - apply toml_any.
Qed.

Lemma expand_whitespace E f path text ns s' : reads_text E -> utf8 text ->
  expand E f path text = Ok (ns, s') ->
  Forall (Forall blank_char) (flat_map ws_fields ns) /\
  (forall k m, get k (x_defs s') = Some m ->
     Forall (Forall blank_char) (flat_map ws_fields (macro_nodes m))).
Proof.
  intros T U H. unfold expand in H. destruct (parse (e_unescape E) 0 text) as [tree| | | |] eqn:P; try discriminate.
  pose proof (expand_post _ _ _ _ E (respects_blank E T) f path text tree I) as X.
  unfold expand in X. rewrite P in X. specialize (X ltac:(repeat constructor; exact U) eq_refl).
  cbn [bind] in X, H. rewrite H in X. destruct X as [[_ [_ D]] G]. split.
  - apply goods_fields in G. apply G.
  - intros k m Q. destruct (D k m Q) as [D1 D2]. unfold macro_nodes. rewrite flat_map_app. apply Forall_app.
    apply goods_fields in D1, D2. split; [apply D1|apply D2].
Qed.

(** ** Text is valid, positions are inside their sources *)

Lemma site_more N M st : extends N M -> points_into N st -> points_into M st.
Proof.
  intros [l ->] [p [t [Q O]]]. exists p, t. split; [|exact O].
  rewrite nth_error_app1; [exact Q|]. apply nth_error_Some. congruence.
Qed.

Section Text.
Variable E : env.
Variable path text : bytes.
Hypothesis T : textual E.
Hypothesis U : utf8 text.

Lemma read_text N : read_from E path text N -> all_text N.
Proof.
  intros [l [-> F]]. constructor; [exact U|]. eapply Forall_impl; [|exact F].
  intros [p t] H. exact (t_read E T _ _ H).
Qed.

Lemma respects_text : respected utf8 (Forall blank_char) points_into (read_from E path text) E.
Proof.
  constructor; intros; try (constructor; fail); try (eapply site_more; eassumption; fail).
  - apply utf8_app2; assumption.
  - apply plain_utf8. eapply Forall_impl; [|exact H]. intros c [->|[->|[->| ->]]]; vm_compute; lia.
  - constructor; [|constructor]. do 3 right. reflexivity.
  - apply plain_utf8, plain_nat.
  - apply plain_utf8, plain_Z.
  - apply plain_utf8, plain_b. reflexivity.
  - apply plain_utf8, plain_b. reflexivity.
  - apply plain_utf8, plain_b. reflexivity.
  - exact (t_read E T _ _ H).
  - destruct H as [l [-> F]]. exists (l ++ [(p, t)]). split; [reflexivity|]. apply Forall_app.
    split; [exact F|]. constructor; [exact H0|constructor].
  - apply goods_fields. apply read_text in H1. apply Forall_app in H1 as [_ H1].
    assert (UT : utf8 text0) by exact H0.
    split; [eapply parse_utf8; [exact (t_unescape E T)|exact UT|exact H]|]. split; [eapply parse_ws; [exact UT|exact H]|].
    pose proof (parse_sites (e_unescape E) (length N) text0 UT) as S. rewrite H in S.
    eapply Forall_impl; [|exact S]. intros st [S1 S2]. exists path0, text0. split; [|exact S1].
    rewrite S2, nth_error_app2, Nat.sub_diag by lia. reflexivity.
  - exact (t_env E T _ _ H).
  - apply plain_utf8, plain_b. reflexivity.
  - exact (t_date E T _ _ _ _ H).
  - exact (t_format E T _ _ _ H).
  - exact (t_html E T _ _ H).
  - exact (t_yaml E T _ _ H).
  - apply texts_good. exact (t_toml E T _ _ H).
  - apply lossy_utf8.
Qed.

Lemma expand_all f : match expand E f path text with
  | Ok (ns, s') =>
      read_from E path text (srcs s') /\
      Forall utf8 (flat_map values ns) /\ Forall (points_into (srcs s')) (flat_map node_sites ns) /\
      (forall k m, get k (x_defs s') = Some m ->
         Forall utf8 (flat_map values (macro_nodes m)) /\
         Forall (points_into (srcs s')) (flat_map node_sites (macro_nodes m))) /\
      Forall (fun line => points_into (srcs s') (fst line) /\ utf8 (snd line)) (g_log (x_world s'))
  | Err (EErr _ st) => exists N, read_from E path text N /\ points_into N st
  | _ => True
  end.
Proof.
  assert (O : read_from E path text [(path, text)]) by (exists []; split; [reflexivity|constructor]).
  destruct (parse (e_unescape E) 0 text) as [tree|[k st]| | |] eqn:P; try (unfold expand; rewrite P; exact I).
  - pose proof (expand_post _ _ _ _ E respects_text f path text tree U O P) as X.
    destruct (expand E f path text) as [[ns s']|[k st]| | |]; try exact I.
    + destruct X as [[_ [[M L] D]] G]. cbn in M, L, D, G. split; [exact M|]. apply goods_fields in G.
      split; [apply G|]. split; [apply G|]. split; [|exact L]. intros k m Q. destruct (D k m Q) as [D1 D2].
      unfold macro_nodes. rewrite !flat_map_app, !Forall_app. apply goods_fields in D1, D2. tauto.
    + apply X.
  - unfold expand. rewrite P. cbn [bind]. exists [(path, text)]. split; [exact O|].
    pose proof (parse_sites (e_unescape E) 0 text U) as S. rewrite P in S. destruct S as [S1 S2].
    exists path, text. rewrite S2. auto.
Qed.
End Text.

(** ** Freed sources *)

Definition src_in (N : sources) (st : site) : Prop := s_src st < length N.

Lemma respects_src E : reads_text E -> respected any any src_in all_text E.
Proof.
  intros T. constructor; intros; try exact I.
  - unfold src_in in *. apply extends_le in H. lia.
  - apply Forall_app. split; [assumption|]. constructor; [|constructor]. eapply T; eassumption.
  - apply goods_fields. split; [apply Forall_forall; intros; exact I|].
    split; [apply Forall_forall; intros; exact I|].
    assert (UT : utf8 text) by (apply Forall_app in H1 as [_ H1]; inversion H1; assumption).
    pose proof (parse_sites (e_unescape E) (length N) text UT) as S. rewrite H in S.
    eapply Forall_impl; [|exact S]. intros st [_ S2]. unfold src_in. rewrite S2, app_length. cbn. lia.
  - apply toml_any.
Qed.

Lemma expand_live E f path text ns s' : reads_text E -> utf8 text ->
  expand E f path text = Ok (ns, s') -> g_freed (x_world s') = [] ->
  Forall (live s') (flat_map node_sites ns) /\
  (forall k m, get k (x_defs s') = Some m -> Forall (live s') (flat_map node_sites (macro_nodes m))).
Proof.
  intros T U H F. unfold expand in H. destruct (parse (e_unescape E) 0 text) as [tree| | | |] eqn:P; try discriminate.
  pose proof (expand_post _ _ _ _ E (respects_src E T) f path text tree I) as X.
  unfold expand in X. rewrite P in X. specialize (X ltac:(repeat constructor; exact U) eq_refl).
  cbn [bind] in X, H. rewrite H in X. destruct X as [[_ [_ D]] G].
  assert (L : forall l, Forall (src_in (srcs s')) l -> Forall (live s') l).
  { intros l. apply Forall_impl. intros st S. split; [exact S|]. rewrite F. intros []. }
  split.
  - apply goods_fields in G. apply L, G.
  - intros k m Q. destruct (D k m Q) as [D1 D2]. unfold macro_nodes. rewrite flat_map_app. apply Forall_app.
    apply goods_fields in D1, D2. split; apply L; [apply D1|apply D2].
Qed.

Lemma left_ended s s3 : later (copied s) s3 -> ended s (left_ s s3).
Proof.
  intros L. pose proof (later_frame s s3 L) as [A1 A2 _ _ _ _].
  pose proof (later_size _ _ L) as Z. destruct L as [_ _ [l [F O]] _ _ _].
  unfold copied, size, srcs in Z, F, O. cbn in Z, F, O.
  constructor; try reflexivity; try assumption.
  intros i. unfold left_, free_from, size, srcs. cbn. rewrite in_app_iff, F, in_app_iff, in_seq.
  rewrite Forall_forall in O. specialize (O i). split; [intros [H|[H|H]]|intros [H|H]]; auto.
  - right. lia.
  - left. lia.
Qed.

Section Ends.
Variable E : env.
Hypothesis ORDER : forall seed l, Permutation (e_order E seed l) l.

Lemma called_ends st m vs s ns s' : called E st m vs s (Ok (ns, s')) -> ended s s'.
Proof.
  intros H. inversion H as [s2 l q [B _] V Z|]. subst. apply closed_ok in Z as [s3 [-> ->]].
  apply left_ended. eapply later_trans; [eapply bind_list_later, B|eapply evals_later, V].
Qed.

Lemma call_ends name args n s ns s' :
  find_builtin name = None -> is_call name args n -> eval E n s (Ok (ns, s')) ->
  exists vs s1, evals E (received args) (entered n s) (Ok (vs, s1)) /\ ended s1 s'.
Proof.
  intros F C H. apply (eval_user E ORDER name args n s _ F C) in H as [q [Q H]].
  destruct q as [[vs s1]| | | |]; cbn in H; try discriminate; try contradiction.
  exists vs, s1. split; [exact Q|]. destruct (get name (x_defs s1)) as [m|]; [|discriminate].
  eapply called_ends, H.
Qed.

Lemma looping_later p body items s ns s' : looping E p body items s (Ok (ns, s')) -> later s s'.
Proof.
  intros L. remember (Ok (ns, s')) as r eqn:R. revert ns R.
  induction L as [s|i items s s1 l xs s2 q [B _] V L IH|i items s s1 l q r B V Fq|]; intros ns R; try discriminate.
  - inversion R; subst. apply later_refl.
  - destruct q as [[ys s3]| | | |]; cbn in R; try discriminate. inversion R; subst.
    eapply later_trans; [eapply bind_node_later, B|]. eapply later_trans; [eapply evals_later, V|].
    eapply IH. reflexivity.
  - subst r. destruct q; cbn in Fq; try discriminate; contradiction.
Qed.

Lemma for_ends args n s ns s' :
  is_call (b "for") args n -> eval E n s (Ok (ns, s')) ->
  exists p i items st ew es w body vs s1,
    positionals (received args) = p :: i :: Lst items st ew es w :: body /\
    evals E items (noted n s (entered n s)) (Ok (vs, s1)) /\ ended s1 s'.
Proof.
  intros C H. apply (eval_for E ORDER args n s _ C) in H.
  destruct (positionals (received args)) as [|p [|[i|i|i|i| |] [|[]]]] eqn:P;
    try (destruct H as [e [H _]]; discriminate).
  destruct (beq (a_val i) (b "in")); [|destruct H as [e [H _]]; discriminate].
  destruct H as [q [Q H]]. destruct q as [[vs s1]| | | |]; cbn in H; try discriminate; try contradiction.
  destruct H as [q1 [L Z]]. symmetry in Z. apply closed_ok in Z as [s3 [-> ->]].
  exists p, (Sym i), nodes, st, end_ws, end_site, ws, l, vs, s1. split; [reflexivity|]. split; [exact Q|].
  apply left_ended. eapply looping_later, L.
Qed.

Lemma matching_ends v clauses s ns s' :
  matching E v clauses s (Ok (ns, s')) ->
  exists k ps s1, evals E (flat_map pattern_of (firstn k clauses)) s (Ok (ps, s1)) /\ (s' = s1 \/ ended s1 s').
Proof.
  intros M. remember (Ok (ns, s')) as r eqn:R. revert R.
  induction M as [s|clause pat body clauses s p s1 r L V B M IH|clause pat body clauses s p s1 s2 l q L V [B _] V2
                 |clause pat body clauses s q r L V Fq| |]; intros R; try discriminate.
  - inversion R; subst. exists 0, [], s'. split; [apply evals_nil; reflexivity|]. auto.
  - destruct (IH R) as [k [ps [s2 [E1 D]]]]. exists (S k), (p :: ps), s2. split; [|exact D].
    cbn [firstn flat_map]. unfold pattern_of at 1. rewrite L.
    apply (evals_cons_ok E). exists [p], s1, ps. split; [exact V|]. split; [exact E1|reflexivity].
  - apply closed_ok in R as [s3 [-> ->]]. exists 1, [p], s1. split.
    + cbn [firstn flat_map]. unfold pattern_of. rewrite L. rewrite app_nil_r. cbn [app].
      apply evals_one_ok, V.
    + right. apply left_ended. eapply later_trans; [eapply bind_node_later, B|eapply evals_later, V2].
  - subst r. destruct q; cbn in Fq; try discriminate; contradiction.
Qed.
Lemma match_ends expr clauses n s ns s' :
  is_call (b "match") (expr :: clauses) n -> eval E n s (Ok (ns, s')) ->
  exists e k vs s1,
    received (expr :: clauses) = e :: clauses /\
    evals E (e :: flat_map pattern_of (firstn k clauses)) (entered n s) (Ok (vs, s1)) /\
    (s' = s1 \/ ended s1 s').
Proof.
  intros C H. apply (eval_match E ORDER expr clauses n s _ C) in H as [e [q [R [V H]]]].
  destruct q as [[[|v [|v' vs]] s1]| | | |]; cbn in H; try discriminate; try contradiction.
  apply matching_ends in H as [k [ps [s2 [V2 D]]]].
  exists e, k, (v :: ps), s2. split; [exact R|]. split; [|exact D].
  apply evals_cons_ok. exists [v], s1, ps. auto.
Qed.

Lemma namespace_ends args n s ns s' :
  is_call (b "namespace") args n -> eval E n s (Ok (ns, s')) ->
  forall i, In i (g_freed (x_world s')) <-> In i (g_freed (x_world s)) \/ size s <= i < size s'.
Proof.
  intros C H. apply (eval_namespace E ORDER args n s _ C) in H as [q [V H]].
  destruct q as [[vs s1]| | | |]; try (cbn in H; discriminate); try contradiction.
  destruct vs as [|name rest]; [discriminate|]. destruct (atomic name); [|discriminate].
  destruct H as [[_ [d [H _]]]|[_ [st [H _]]]]; [|discriminate]. inversion H.
  apply evals_later in V. apply left_ended in V. intros i. pose proof (ended_freed _ _ V i) as F.
  exact F.
Qed.
End Ends.

(** Only sources read in the course of the expansion, never the main one, are
    freed. *)
Lemma expand_freed E f path text ns s' : expand E f path text = Ok (ns, s') ->
  Forall (fun i => 1 <= i < size s') (g_freed (x_world s')).
Proof.
  intros H. unfold expand in H. destruct (parse (e_unescape E) 0 text) as [tree| | | |] eqn:P; try discriminate.
  cbn [bind] in H. apply nodes_later in H as [_ _ [l [F O]] _ _ _]. cbn in F, O. rewrite F, app_nil_r. exact O.
Qed.

(** ** Growth of the vector of invocations *)

Lemma push_bounds v : v_len v <= v_cap v -> v_len (vec_push v) <= v_cap (vec_push v) /\ v_len (vec_push v) = S (v_len v)
  /\ v_cap v <= v_cap (vec_push v) /\ v_gen v <= v_gen (vec_push v).
Proof.
  intros H. unfold vec_push. destruct (v_len v =? v_cap v) eqn:Q; cbn [v_len v_cap v_gen].
  - apply Nat.eqb_eq in Q. lia.
  - apply Nat.eqb_neq in Q. lia.
Qed.
Lemma pushes_bounds n v : v_len v <= v_cap v -> v_len (pushes n v) <= v_cap (pushes n v) /\ v_len (pushes n v) = n + v_len v
  /\ v_cap v <= v_cap (pushes n v) /\ v_gen v <= v_gen (pushes n v).
Proof.
  intros H. induction n as [|n IH]; cbn [pushes]; [lia|].
  destruct (push_bounds (pushes n v)) as [A [B [C D]]]; [lia|]. lia.
Qed.
Lemma pushes_room n v : n + v_len v <= v_cap v -> v_gen (pushes n v) = v_gen v /\ v_cap (pushes n v) = v_cap v.
Proof.
  intros H. induction n as [|n IH]; cbn [pushes]; [lia|].
  destruct IH as [A B]; [lia|]. destruct (pushes_bounds n v) as [_ [L _]]; [lia|].
  unfold vec_push. rewrite L, B. destruct (n + v_len v =? v_cap v) eqn:Q; [apply Nat.eqb_eq in Q; lia|].
  cbn. lia.
Qed.
Lemma pushes_plus m n v : pushes (m + n) v = pushes m (pushes n v).
Proof. induction m as [|m IH]; cbn; [reflexivity|]. rewrite IH. reflexivity. Qed.
Lemma reallocated n v : v_len v <= v_cap v -> v_gen (pushes n v) = v_gen v <-> n + v_len v <= v_cap v.
Proof.
  intros H. split; [|intros R; apply (pushes_room n v R)].
  intros G. destruct (le_gt_dec (n + v_len v) (v_cap v)) as [R|R]; [exact R|exfalso].
  set (m := v_cap v - v_len v). destruct (pushes_room m v) as [G1 C1]; [lia|].
  destruct (pushes_bounds m v H) as [_ [L1 _]].
  replace n with ((n - S m) + (1 + m)) in G by lia. rewrite pushes_plus in G.
  assert (F : v_gen (pushes (1 + m) v) = S (v_gen v)).
  { cbn [pushes Nat.add]. unfold vec_push. rewrite L1, C1. replace (m + v_len v =? v_cap v) with true by (symmetry; apply Nat.eqb_eq; lia).
    cbn. lia. }
  destruct (pushes_bounds (n - S m) (pushes (1 + m) v)) as [_ [_ [_ M]]]; [apply pushes_bounds, H|].
  lia.
Qed.
Lemma capacity n : exists k, v_cap (pushes (S n) (Vec 0 0 0)) = 4 * 2 ^ k /\ S n <= 4 * 2 ^ k /\ (k = 0 \/ 4 * 2 ^ (k - 1) < S n).
Proof.
  induction n as [|n [k [C [L M]]]].
  - exists 0. cbn. lia.
  - destruct (pushes_bounds (S n) (Vec 0 0 0)) as [_ [B _]]; [cbn; lia|]. rewrite Nat.add_0_r in B.
    change (pushes (S (S n)) (Vec 0 0 0)) with (vec_push (pushes (S n) (Vec 0 0 0))).
    set (v := pushes (S n) (Vec 0 0 0)) in *. clearbody v.
    unfold vec_push. rewrite B, C. destruct (S n =? 4 * 2 ^ k) eqn:Q; cbn [v_cap].
    + apply Nat.eqb_eq in Q. exists (S k). rewrite Nat.pow_succ_r'. replace (S k - 1) with k by lia. lia.
    + apply Nat.eqb_neq in Q. exists k. lia.
Qed.

(** ** Stages *)

Lemma expand_stage E f path text tree k st : parse (e_unescape E) 0 text = Ok tree ->
  expand E f path text = Err (EErr k st) -> expander_kind k = true.
Proof.
  intros P H. pose proof (expand_post any any anys any E (respects_any E) f path text tree I I P) as X.
  rewrite H in X. apply X.
Qed.

Lemma copy_full s n : v_gen (pushes n (x_vec (copied s))) = v_gen (x_vec (copied s)) <-> n = 0.
Proof. rewrite reallocated; cbn; lia. Qed.
