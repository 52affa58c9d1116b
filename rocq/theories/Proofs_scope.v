(** * Proofs about [%namespace], [%include] and [%embed] *)

From Coq Require Import String List Ascii Bool Arith NArith Lia Permutation Sorted.
From Verif Require Import Text Res Ast Args Env Scope State Bind Data Sorting Expander Numbers Paths Parser
  Spec_args Spec_expand Spec_builtin Spec_control Spec_sort Spec_scope Proofs_text Proofs_ast Proofs_run
  Proofs_eval Proofs_args Proofs_builtin Proofs_simple Proofs_bind Proofs_control Proofs_sort.
Import ListNotations.

(** ** Copying definitions *)

Lemma copied_get prefix keys from : forall to k,
  get k (copy_prefixed prefix keys from to) =
  match find (fun k' => beq k (prefix ++ k') && is_some (get k' from)) keys with
  | Some k' => get k' from
  | None => get k to
  end.
Proof.
  induction keys as [|k0 keys IH]; intros to k; [reflexivity|].
  unfold copy_prefixed in *. cbn [fold_left find]. rewrite IH.
  destruct (find _ keys) as [k'|] eqn:F.
  - apply find_some in F as [_ F]. apply andb_true_iff in F as [F1 F2]. apply beq_eq in F1.
    destruct (beq k (prefix ++ k0) && is_some (get k0 from)) eqn:H; [|reflexivity].
    apply andb_true_iff in H as [H _]. apply beq_eq in H. rewrite F1 in H. apply app_inv_head in H. congruence.
  - destruct (get k0 from) as [m|] eqn:G; cbn [is_some].
    + destruct (beq k (prefix ++ k0)) eqn:H; cbn [andb].
      * apply beq_eq in H. subst k. rewrite get_put_same. symmetry. exact G.
      * apply get_put_other. intros ->. rewrite beq_refl in H. discriminate.
    + rewrite andb_false_r. reflexivity.
Qed.

Lemma copy_imported prefix keys from to : Permutation keys (scope_names from) ->
  imported prefix from to (copy_prefixed prefix keys from to).
Proof.
  intros P. split.
  - intros k m G. rewrite copied_get.
    destruct (find _ keys) as [k'|] eqn:F.
    + apply find_some in F as [_ F]. apply andb_true_iff in F as [F1 F2]. apply beq_eq in F1.
      apply app_inv_head in F1. subst. exact G.
    + exfalso. assert (I : In k keys).
      { apply (Permutation_in _ (Permutation_sym P)), scope_names_iff. congruence. }
      pose proof (find_none _ _ F k I) as N. cbv beta in N. rewrite beq_refl, G in N. discriminate.
  - intros k N. rewrite copied_get. destruct (find _ keys) as [k'|] eqn:F; [|reflexivity].
    apply find_some in F as [_ F]. apply andb_true_iff in F as [F1 F2]. apply beq_eq in F1.
    rewrite (N k' F1) in F2. discriminate.
Qed.

Lemma imported_fun prefix inner outer f1 f2 :
  imported prefix inner outer f1 -> imported prefix inner outer f2 -> f1 = f2.
Proof.
  intros [A1 B1] [A2 B2]. apply scope_ext. intros k.
  destruct (starts_with prefix k) eqn:S.
  - apply starts_with_iff in S as [k' ->]. destruct (get k' inner) as [m|] eqn:G.
    + rewrite (A1 _ _ G), (A2 _ _ G). reflexivity.
    + assert (N : forall k'', prefix ++ k' = prefix ++ k'' -> get k'' inner = None).
      { intros k'' H. apply app_inv_head in H. congruence. }
      rewrite (B1 _ N), (B2 _ N). reflexivity.
  - assert (N : forall k', k = prefix ++ k' -> get k' inner = None).
    { intros k' ->. exfalso. assert (starts_with prefix (prefix ++ k') = true); [|congruence].
      apply starts_with_iff. eauto. }
    rewrite (B1 _ N), (B2 _ N). reflexivity.
Qed.

(** ** Options of [%namespace] *)

Lemma front_after ns : ns = front_keywords ns ++ after_keywords ns.
Proof. induction ns as [|[]]; cbn; congruence. Qed.

Lemma options_cons n ns ok : options (n :: ns) ok <->
  (forall k v st w, n = Attr k v st w -> ok k v) /\ options ns ok.
Proof.
  unfold options. split.
  - intros H. split; [intros k v st w ->; eapply H; left; reflexivity|].
    intros k v st w I. eapply H. right. exact I.
  - intros [A B] k v st w [->|I]; [eapply A; reflexivity|eapply B, I].
Qed.

Lemma namespace_options_ok ns : forall sep,
  options (front_keywords ns) is_separator ->
  namespace_options sep ns = Ok (chosen (b "separator") sep (front_keywords ns), after_keywords ns).
Proof.
  induction ns as [|n ns IH]; intros sep O; [reflexivity|].
  destruct n as [a|a|a|a|l st ew es w|k v st w]; try reflexivity.
  cbn [namespace_options front_keywords after_keywords] in *.
  apply options_cons in O as [O1 O2]. destruct (O1 _ _ _ _ eq_refl) as [-> L].
  rewrite beq_refl. unfold literal in L. destruct (atomic v) as [a|] eqn:A; [|congruence].
  rewrite (IH _ O2). f_equal. f_equal. unfold chosen. cbn [keyword_value].
  destruct (keyword_value (b "separator") (front_keywords ns)) as [v'|] eqn:K.
  - apply keyword_in in K as [st' [w' I]]. destruct (O2 _ _ _ _ I) as [_ L'].
    unfold literal in L'. destruct (atomic v'); [reflexivity|congruence].
  - rewrite beq_refl, A. reflexivity.
Qed.

Lemma namespace_options_bad ns : forall sep,
  ~ options (front_keywords ns) is_separator ->
  exists st, namespace_options sep ns = Err (EErr ENamespace st).
Proof.
  induction ns as [|n ns IH]; intros sep O; [exfalso; apply O, options_nil|].
  destruct n as [a|a|a|a|l st ew es w|k v st w]; try (exfalso; apply O, options_nil).
  cbn [namespace_options front_keywords] in *.
  destruct (beq k (b "separator")) eqn:K; [|unfold error; eauto].
  apply beq_eq in K. destruct (atomic v) as [a|] eqn:A; [|unfold error; eauto].
  apply IH. intros O2. apply O. apply options_cons. split; [|exact O2].
  intros k' v' st' w' Q. inversion Q; subst. split; [reflexivity|]. unfold literal. congruence.
Qed.

(** ** Searching files *)

Section WithEnv.
Variable E : env.
Notation ex f := (fun n s => run E f (TNode n) s).
Notation inv f := (fun name c ps s => run E f (TInvoke name c ps) s).

Lemma search_first sex path dirs :
  match search_file E sex dirs path with
  | Some (p, text) => first_readable E (candidates sex dirs path) p text
  | None => none_readable E (candidates sex dirs path)
  end.
Proof.
  unfold candidates, first_readable, none_readable.
  induction dirs as [|d dirs IH]; cbn [search_file flat_map]; [constructor|].
  destruct (e_read E (path_join d path)) as [t|] eqn:R1.
  { exists []. eexists. split; [reflexivity|]. auto. }
  destruct sex.
  - destruct (with_sex (path_join d path)) as [q|] eqn:W; [destruct (e_read E q) as [t|] eqn:R2|].
    + exists [path_join d path]. eexists. split; [reflexivity|]. auto.
    + destruct (search_file E true dirs path) as [[p t]|].
      * destruct IH as [pre [post [-> [H1 H2]]]].
        exists (path_join d path :: q :: pre), post. split; [reflexivity|]. auto.
      * cbn. auto.
    + destruct (search_file E true dirs path) as [[p t]|].
      * destruct IH as [pre [post [-> [H1 H2]]]].
        exists (path_join d path :: pre), post. split; [reflexivity|]. auto.
      * cbn. auto.
  - destruct (search_file E false dirs path) as [[p t]|].
    + destruct IH as [pre [post [-> [H1 H2]]]].
      exists (path_join d path :: pre), post. split; [reflexivity|]. auto.
    + cbn. auto.
Qed.

Lemma first_readable_fun ps p t p' t' :
  first_readable E ps p t -> first_readable E ps p' t' -> p = p' /\ t = t'.
Proof.
  intros [a [c [-> [H1 H2]]]] [a' [c' [Q [H1' H2']]]].
  revert a' Q H1'. induction a as [|x a IH]; intros [|y a'] Q H1'; cbn in Q; inversion Q; subst.
  - split; congruence.
  - inversion H1'; congruence.
  - inversion H1; congruence.
  - inversion H1; inversion H1'; subst. eapply IH; eauto.
Qed.

Lemma readable_not_none ps p t : first_readable E ps p t -> none_readable E ps -> False.
Proof.
  intros [a [c [-> [_ H]]]] N. apply Forall_app in N as [_ N]. inversion N; congruence.
Qed.

Lemma eval_embed args n s r :
  is_call (b "embed") args n ->
  eval E n s r <->
  exists q, evals E (received args) (entered n s) q /\
    match q with
    | Ok ([v], s1) =>
        match atomic v with
        | Some a =>
            (exists p text, first_readable E (candidates false (e_includes E) (a_val a)) p text /\
               r = Ok ([Str (in_place n text)], noted n s s1)) \/
            (none_readable E (candidates false (e_includes E) (a_val a)) /\
               r = Err (EErr EEmbed (a_site a)))
        | None => r = Err (EErr EEmbed (node_site v))
        end
    | Ok _ => r = Err (EErr EEmbed (node_site n))
    | _ => fails q r
    end.
Proof.
  intros C. rewrite (eval_plain E (b "embed") BEmbed (fun c vs s1 => match vs with
    | [n] => match atomic n with
      | None => error EEmbed (node_site n)
      | Some a => match search_file E false (e_includes E) (a_val a) with
          | None => error EEmbed (a_site a)
          | Some (_, text) => Ok ([Str (here c text)], touch c s1)
          end end
    | _ => error EEmbed (call_site c) end) args n s r eq_refl (fun _ _ _ _ _ => eq_refl) C).
  assert (F : forall a s1 (r : out), 
     (r = match search_file E false (e_includes E) (a_val a) with
          | None => error EEmbed (a_site a)
          | Some (_, text) => Ok ([Str (here (ref n s) text)], touch (ref n s) s1)
          end /\ r <> OutOfFuel) <->
     ((exists p text, first_readable E (candidates false (e_includes E) (a_val a)) p text /\
               r = Ok ([Str (in_place n text)], noted n s s1)) \/
            (none_readable E (candidates false (e_includes E) (a_val a)) /\
               r = Err (EErr EEmbed (a_site a))))).
  { intros a s1 r0. pose proof (search_first false (a_val a) (e_includes E)) as S.
    destruct (search_file E false (e_includes E) (a_val a)) as [[p t]|]; split.
    - intros [-> _]. left. exists p, t. split; [exact S|reflexivity].
    - intros [[p' [t' [S' ->]]]|[N _]]; [|destruct (readable_not_none _ _ _ S N)].
      destruct (first_readable_fun _ _ _ _ _ S S') as [_ ->]. split; [reflexivity|discriminate].
    - intros [-> _]. right. split; [exact S|reflexivity].
    - intros [[p' [t' [S' ->]]]|[N ->]]; [destruct (readable_not_none _ _ _ S' S)|].
      split; [reflexivity|discriminate]. }
  split; intros [q [Q H]]; exists q; (split; [exact Q|]).
  - destruct q as [[[|v [|v2 vs]] s1]|e|p| |]; cbn [bind fails] in *; try (destruct H as [-> H]; try reflexivity; congruence).
    destruct (atomic v) as [a|]; [apply F; exact H|destruct H as [-> _]; reflexivity].
  - destruct q as [[[|v [|v2 vs]] s1]|e|p| |]; cbn [bind fails] in *; try contradiction;
      try (subst r; split; [reflexivity|discriminate]).
    destruct (atomic v) as [a|]; [apply F; exact H|subst r; split; [reflexivity|discriminate]].
Qed.

(** The source number and state after reading a file. *)
Lemma eval_include args n s r :
  is_call (b "include") args n ->
  eval E n s r <->
  exists q, evals E (received args) (entered n s) q /\
    match q with
    | Ok ([v], s1) =>
        match atomic v with
        | Some a =>
            (exists p text, first_readable E (candidates true (e_includes E) (a_val a)) p text /\
               let id := length (g_sources (x_world s1)) in
               let s2 := snd (add_source p text s1) in
               match parse (e_unescape E) id text with
               | Ok tree => exists q1, evals E tree s2 q1 /\
                   match q1 with
                   | Ok ([], s3) => r = Ok ([], s3)
                   | Ok (ns, s3) => r = Ok (respaced (leading_ws n) ns, noted n s s3)
                   | _ => fails q1 r
                   end
               | Err _ => r = Err (EErr EInclude (node_site n))
               | Panic x => r = Panic x
               | Hang => r = Hang
               | OutOfFuel => False
               end) \/
            (none_readable E (candidates true (e_includes E) (a_val a)) /\
               r = Err (EErr EInclude (a_site a)))
        | None => r = Err (EErr EInclude (node_site v))
        end
    | Ok _ => r = Err (EErr EInclude (node_site n))
    | _ => fails q r
    end.
Proof.
  intros C. rewrite (eval_builtin E (b "include") BInclude args n s r eq_refl C).
  cbn [run_builtin]. unfold do_include. rewrite settles_seq by apply growing_exs.
  assert (F : forall a s1, 
     settles (fun f => match search_file E true (e_includes E) (a_val a) with
          | None => error EInclude (a_site a)
          | Some (path, text) =>
              let '(id, s) := add_source path text s1 in
              match parse (e_unescape E) id text with
              | Ok tree =>
                  let* '(ns, s) := exs (ex f) tree s in
                  match ns with
                  | [] => Ok ([], s)
                  | _ => Ok (set_first_ws (call_ws (ref n s)) ns, touch (ref n s) s)
                  end
              | Err _ => error EInclude (call_site (ref n s))
              | Panic p => Panic p
              | Hang => Hang
              | OutOfFuel => OutOfFuel
              end
          end) r -> True) by trivial.
  clear F.
  split; intros [q [Q H]]; exists q; (split; [exact Q|]);
    destruct q as [[[|v [|v2 vs]] s1]|e|p| |]; try contradiction; try exact H;
    try (apply settles_const_iff in H as [-> _]; reflexivity);
    try (subst r; apply settles_const; discriminate).
  - destruct (atomic v) as [a|]; [|apply settles_const_iff in H as [-> _]; reflexivity].
    pose proof (search_first true (a_val a) (e_includes E)) as S.
    destruct (search_file E true (e_includes E) (a_val a)) as [[p t]|].
    2: { apply settles_const_iff in H as [-> _]. right. split; [exact S|reflexivity]. }
    left. exists p, t. split; [exact S|]. cbv zeta. cbn [add_source snd] in *.
    destruct (parse (e_unescape E) (length (g_sources (x_world s1))) t) as [tree|e|x| |];
      try (apply settles_const_iff in H as [-> _]; reflexivity).
    + rewrite settles_seq in H by apply growing_exs. destruct H as [q1 [Q1 H]]. exists q1.
      split; [exact Q1|]. destruct q1 as [[[|m ms] s3]|e|x| |]; try exact H.
      * apply settles_const_iff in H as [-> _]. reflexivity.
      * apply settles_const_iff in H as [-> _]. reflexivity.
    + apply settles_const_iff in H as [_ H]. congruence.
  - destruct (atomic v) as [a|]; [|subst r; apply settles_const; discriminate].
    pose proof (search_first true (a_val a) (e_includes E)) as S.
    destruct H as [[p [t [S' H]]] | [N ->]].
    2: { destruct (search_file E true (e_includes E) (a_val a)) as [[p t]|];
         [destruct (readable_not_none _ _ _ S N)|]. apply settles_const. discriminate. }
    destruct (search_file E true (e_includes E) (a_val a)) as [[p' t']|];
      [|destruct (readable_not_none _ _ _ S' S)].
    destruct (first_readable_fun _ _ _ _ _ S S') as [-> ->]. cbv zeta in H. cbn [add_source snd] in *.
    destruct (parse (e_unescape E) (length (g_sources (x_world s1))) t) as [tree|e|x| |];
      try (subst r; apply settles_const; discriminate); try contradiction.
    destruct H as [q1 [Q1 H]]. rewrite settles_seq by apply growing_exs. exists q1.
    split; [exact Q1|]. destruct q1 as [[[|m ms] s3]|e|x| |]; try exact H; subst r; apply settles_const; discriminate.
Qed.

Hypothesis ORDER : forall seed l, Permutation (e_order E seed l) l.

Lemma eval_namespace args n s r :
  is_call (b "namespace") args n ->
  eval E n s r <->
  exists q, evals E (received args) (copied (entered n s)) q /\
    match q with
    | Ok (vs, s1) =>
        match vs with
        | name :: rest =>
            match atomic name with
            | Some a =>
                (options (front_keywords rest) is_separator /\
                 exists defs, r = Ok (after_keywords rest,
                      new_maps 1 (set_defs defs (left_ (entered n s) s1))) /\
                   imported (a_val a ++ chosen (b "separator") (b "/") (front_keywords rest))
                     (x_defs s1) (x_defs s) defs) \/
                (~ options (front_keywords rest) is_separator /\
                 exists st, r = Err (EErr ENamespace st) /\
                   namespace_options (b "/") rest = Err (EErr ENamespace st))
            | None => r = Err (EErr ENamespace (node_site n))
            end
        | [] => r = Err (EErr ENamespace (node_site n))
        end
    | _ => fails q r
    end.
Proof.
  intros C. rewrite (eval_builtin E (b "namespace") BNamespace args n s r eq_refl C).
  cbn [run_builtin]. unfold do_namespace, in_frame.
  set (K := fun vs s1 =>
    let s2 := left_ (entered n s) s1 in
    match vs with
    | [] => error ENamespace (node_site n)
    | name :: ns' =>
        match atomic name with
        | None => error ENamespace (node_site n)
        | Some a =>
            let* '(sep, body) := namespace_options (b "/") ns' in
            let keys := e_order E (g_seed (x_world s2)) (scope_names (x_defs s1)) in
            Ok (body, new_maps 1 (set_defs (copy_prefixed (a_val a ++ sep) keys (x_defs s1) (x_defs s2)) s2))
        end
    end : out).
  rewrite (settles_ext _ (fun f => bind (exs (ex f) (received args) (copied (entered n s)))
     (fun '(vs, s1) => K vs s1))).
  2: { intros f. unfold K. change (State (x_defs (entered n s)) (vec_clone (x_vec (entered n s))) (x_world (entered n s)))
         with (copied (entered n s)).
       destruct (exs (ex f) (received args) (copied (entered n s))) as [[vs s1]| | | |]; reflexivity. }
  rewrite settles_seq by apply growing_exs.
  enough (H : forall vs s1, settles (fun _ : nat => K vs s1) r <->
        match vs with
        | name :: rest =>
            match atomic name with
            | Some a =>
                (options (front_keywords rest) is_separator /\
                 exists defs, r = Ok (after_keywords rest,
                      new_maps 1 (set_defs defs (left_ (entered n s) s1))) /\
                   imported (a_val a ++ chosen (b "separator") (b "/") (front_keywords rest))
                     (x_defs s1) (x_defs s) defs) \/
                (~ options (front_keywords rest) is_separator /\
                 exists st, r = Err (EErr ENamespace st) /\
                   namespace_options (b "/") rest = Err (EErr ENamespace st))
            | None => r = Err (EErr ENamespace (node_site n))
            end
        | [] => r = Err (EErr ENamespace (node_site n))
        end).
  { split; intros [q [Q Z]]; exists q; (split; [exact Q|]); destruct q as [[vs s1]|e|p| |]; try exact Z;
      apply H; exact Z. }
  intros vs s1. rewrite settles_const_iff. unfold K. clear K. cbv zeta.
  destruct vs as [|name rest].
  { split; [intros [-> _]; reflexivity|intros ->; split; [reflexivity|discriminate]]. }
  destruct (atomic name) as [a|].
  2: { split; [intros [-> _]; reflexivity|intros ->; split; [reflexivity|discriminate]]. }
  assert (D : options (front_keywords rest) is_separator \/ ~ options (front_keywords rest) is_separator).
  { clear. induction (front_keywords rest) as [|m ms IH]; [left; apply options_nil|].
    rewrite options_cons. destruct IH as [IH|IH]; [|right; tauto].
    destruct m as [x|x|x|x|l st ew es w|k v st w]; try (left; split; [intros; discriminate|exact IH]).
    destruct (beq k (b "separator")) eqn:K; [apply beq_eq in K; subst|].
    - destruct (atomic v) as [x|] eqn:A.
      + left. split; [|exact IH]. intros ? ? ? ? Q; inversion Q; subst. split; [reflexivity|]. unfold literal. congruence.
      + right. intros [W _]. destruct (W _ _ _ _ eq_refl) as [_ L]. unfold literal in L. congruence.
    - right. intros [W _]. destruct (W _ _ _ _ eq_refl) as [L _]. rewrite L, beq_refl in K. discriminate. }
  destruct D as [D|D].
  - rewrite (namespace_options_ok rest (b "/") D). cbn [bind]. split.
    + intros [-> _]. left. split; [exact D|]. eexists. split; [reflexivity|].
      apply copy_imported, ORDER.
    + intros [[_ [defs [-> I]]] | [N _]]; [|contradiction]. split; [|discriminate].
      rewrite (imported_fun _ _ _ _ _ I (copy_imported _ _ _ (x_defs s) (ORDER (g_seed (x_world (left_ (entered n s) s1))) _))). reflexivity.
  - destruct (namespace_options_bad rest (b "/") D) as [st Q]. rewrite Q. cbn [bind]. split.
    + intros [-> _]. right. split; [exact D|]. exists st. auto.
    + intros [[N _] | [_ [st' [-> Q']]]]; [contradiction|]. inversion Q'; subst. split; [reflexivity|discriminate].
Qed.
End WithEnv.

(** ** Paths *)

Lemma component_cmp_sym x y : component_cmp y x = CompOpp (component_cmp x y).
Proof. destruct x, y; try reflexivity. apply bytes_cmp_sym. Qed.
Lemma component_cmp_eq x y : component_cmp x y = Eq <-> x = y.
Proof.
  destruct x, y; cbn; try (split; congruence). rewrite bytes_cmp_eq. split; congruence.
Qed.
Lemma component_cmp_lt_trans x y z :
  component_cmp x y = Lt -> component_cmp y z = Lt -> component_cmp x z = Lt.
Proof.
  destruct x, y, z; cbn; try congruence. intros H1 H2.
  destruct (bytes_cmp name name1) eqn:H; [|reflexivity|].
  - apply bytes_cmp_eq in H. subst. rewrite bytes_cmp_sym, H1 in H2. discriminate.
  - exfalso. apply (bytes_cmp_trans name name0 name1); congruence.
Qed.

Section ListCmp.
Context {A : Type}.
Variable cmp : A -> A -> comparison.
Hypothesis SYM : forall x y, cmp y x = CompOpp (cmp x y).
Hypothesis EQ : forall x y, cmp x y = Eq <-> x = y.
Hypothesis TRANS : forall x y z, cmp x y = Lt -> cmp y z = Lt -> cmp x z = Lt.

Lemma list_cmp_sym x : forall y, list_cmp cmp y x = CompOpp (list_cmp cmp x y).
Proof.
  induction x as [|c x IH]; intros [|d y]; try reflexivity. cbn. rewrite (SYM c d).
  destruct (cmp c d); cbn; auto.
Qed.
Lemma list_cmp_eq x : forall y, list_cmp cmp x y = Eq <-> x = y.
Proof.
  induction x as [|c x IH]; intros [|d y]; cbn; try (split; congruence).
  destruct (cmp c d) eqn:H.
  - apply EQ in H. subst. rewrite IH. split; congruence.
  - split; [discriminate|]. intros Q. inversion Q; subst. assert (cmp d d = Eq) by (apply EQ; reflexivity). congruence.
  - split; [discriminate|]. intros Q. inversion Q; subst. assert (cmp d d = Eq) by (apply EQ; reflexivity). congruence.
Qed.
Lemma list_cmp_lt_trans x : forall y z,
  list_cmp cmp x y = Lt -> list_cmp cmp y z = Lt -> list_cmp cmp x z = Lt.
Proof.
  induction x as [|c x IH]; intros [|d y] [|e z]; cbn; try congruence.
  destruct (cmp c d) eqn:H1; destruct (cmp d e) eqn:H2; try congruence; intros H3 H4.
  - apply EQ in H1, H2. subst. assert (Q : cmp e e = Eq) by (apply EQ; reflexivity). rewrite Q. eauto.
  - apply EQ in H1. subst. rewrite H2. reflexivity.
  - apply EQ in H2. subst. rewrite H1. reflexivity.
  - rewrite (TRANS _ _ _ H1 H2). reflexivity.
Qed.
End ListCmp.

Lemma path_cmp_sym p q : path_cmp q p = CompOpp (path_cmp p q).
Proof. apply list_cmp_sym, component_cmp_sym. Qed.
Lemma path_cmp_eq p q : path_cmp p q = Eq <-> components p = components q.
Proof. apply list_cmp_eq, component_cmp_eq. Qed.
Lemma path_cmp_lt_trans p q r : path_cmp p q = Lt -> path_cmp q r = Lt -> path_cmp p r = Lt.
Proof.
  apply list_cmp_lt_trans; [apply component_cmp_eq|apply component_cmp_lt_trans].
Qed.
Lemma path_cmp_eq_l p q r : path_cmp p q = Eq -> path_cmp p r = path_cmp q r.
Proof. intros H. apply path_cmp_eq in H. unfold path_cmp. rewrite H. reflexivity. Qed.
Lemma path_cmp_eq_r p q r : path_cmp p q = Eq -> path_cmp r p = path_cmp r q.
Proof. intros H. apply path_cmp_eq in H. unfold path_cmp. rewrite H. reflexivity. Qed.

(** ** Sets *)

Section Set_.
Context {A : Type}.
Variable cmp : A -> A -> comparison.
Hypothesis SYM : forall x y, cmp y x = CompOpp (cmp x y).
Hypothesis LT : forall x y z, cmp x y = Lt -> cmp y z = Lt -> cmp x z = Lt.
Hypothesis EQ : forall x y z, cmp x y = Eq -> cmp x z = cmp y z.

Notation increasing := (StronglySorted (fun x y => cmp x y = Lt)).

Lemma bt_insert_in x l y : In y (bt_insert cmp x l) -> y = x \/ In y l.
Proof.
  induction l as [|z l IH]; cbn; [intuition|].
  destruct (cmp x z); cbn; intuition.
Qed.

Lemma bt_insert_keeps x l y : In y l -> In y (bt_insert cmp x l).
Proof.
  induction l as [|z l IH]; cbn; [tauto|].
  destruct (cmp x z); cbn; intuition.
Qed.

Lemma bt_insert_has x l : exists y, In y (bt_insert cmp x l) /\ (y = x \/ cmp x y = Eq).
Proof.
  induction l as [|z l IH]; cbn; [exists x; auto|].
  destruct (cmp x z) eqn:H.
  - exists z. cbn. auto.
  - exists x. cbn. auto.
  - destruct IH as [y [I J]]. exists y. cbn. auto.
Qed.

Lemma bt_insert_increasing x l : increasing l -> increasing (bt_insert cmp x l).
Proof.
  induction l as [|z l IH]; intros S; cbn; [repeat constructor|].
  inversion S as [|? ? S1 S2]; subst. destruct (cmp x z) eqn:H; [exact S| |].
  - constructor; [exact S|]. constructor; [exact H|].
    rewrite Forall_forall in *. intros y I. eapply LT; [exact H|apply S2, I].
  - constructor; [apply IH, S1|]. rewrite Forall_forall in *. intros y I.
    apply bt_insert_in in I as [->|I]; [|apply S2, I]. rewrite SYM, H. reflexivity.
Qed.

Lemma cmp_refl x : cmp x x = Eq.
Proof. specialize (SYM x x). destruct (cmp x x); cbn in SYM; congruence. Qed.

(** Increasing lists with the same elements up to equality are equal up to
    equality. *)
Lemma increasing_same l1 : forall l2, increasing l1 -> increasing l2 ->
  (forall x, In x l1 -> exists y, In y l2 /\ cmp x y = Eq) ->
  (forall x, In x l2 -> exists y, In y l1 /\ cmp x y = Eq) ->
  Forall2 (fun x y => cmp x y = Eq) l1 l2.
Proof.
  induction l1 as [|x l1 IH]; intros [|y l2] S1 S2 H1 H2.
  - constructor.
  - destruct (H2 y (or_introl eq_refl)) as [? [[] _]].
  - destruct (H1 x (or_introl eq_refl)) as [? [[] _]].
  - inversion S1 as [|? ? S1' M1]; inversion S2 as [|? ? S2' M2]; subst.
    rewrite Forall_forall in M1, M2.
    assert (XY : cmp x y = Eq).
    { destruct (H1 x (or_introl eq_refl)) as [y' [[->|I] Q]]; [exact Q|].
      destruct (H2 y (or_introl eq_refl)) as [x' [[->|I'] Q']]; [rewrite SYM, Q'; reflexivity|].
      specialize (M1 _ I'). specialize (M2 _ I).
      rewrite (EQ _ _ y' Q') in M2.
      assert (Z : cmp y' x' = Gt) by (rewrite SYM, M2; reflexivity).
      rewrite (EQ _ _ x' Q) in M1. congruence. }
    constructor; [exact XY|]. apply IH; auto.
    + intros z Z. destruct (H1 z (or_intror Z)) as [z' [[<-|I] Q]]; [|eauto].
      exfalso. specialize (M1 _ Z). rewrite (EQ _ _ z XY) in M1. rewrite SYM, M1 in Q. discriminate.
    + intros z Z. destruct (H2 z (or_intror Z)) as [z' [[<-|I] Q]]; [|eauto].
      exfalso. specialize (M2 _ Z). rewrite <- (EQ _ _ z XY) in M2. rewrite SYM, M2 in Q. discriminate.
Qed.
End Set_.

Lemma include_fold dirs : forall set,
  StronglySorted (fun p q => path_cmp p q = Lt) set ->
  let final := fold_left (fun set d => bt_insert path_cmp d set) dirs set in
  StronglySorted (fun p q => path_cmp p q = Lt) final /\
  (forall d, In d final -> In d dirs \/ In d set) /\
  (forall d, In d set -> In d final) /\
  (forall d, In d dirs -> exists d', In d' final /\ same_path d d').
Proof.
  induction dirs as [|d dirs IH]; intros set S; cbn [fold_left].
  - cbv zeta. split; [exact S|]. split; [auto|]. split; [auto|]. intros ? [].
  - destruct (IH (bt_insert path_cmp d set)) as [A [B [C D]]].
    { apply bt_insert_increasing; [apply path_cmp_sym|apply path_cmp_lt_trans|exact S]. }
    cbv zeta in *. split; [exact A|]. split; [|split].
    + intros x X. apply B in X as [X|X]; [cbn; auto|].
      apply bt_insert_in in X as [->|X]; cbn; auto.
    + intros x X. apply C, bt_insert_keeps, X.
    + intros x [<-|X]; [|apply D, X]. destruct (bt_insert_has path_cmp d set) as [y [I J]].
      exists y. split; [apply C, I|]. unfold same_path. destruct J as [->|J]; [|exact J].
      apply path_cmp_eq. reflexivity.
Qed.

Lemma include_set_spec dirs :
  StronglySorted (fun p q => path_cmp p q = Lt) (include_set dirs) /\
  (forall d, In d (include_set dirs) -> In d (b "." :: dirs)) /\
  (forall d, In d (b "." :: dirs) -> exists d', In d' (include_set dirs) /\ same_path d d').
Proof.
  unfold include_set. destruct (include_fold dirs [b "."]) as [A [B [C D]]]; [repeat constructor|].
  split; [exact A|]. split.
  - intros d I. apply B in I as [I|[<-|[]]]; cbn; auto.
  - intros d [<-|I]; [|apply D, I]. exists (b "."). split; [apply C; left; reflexivity|].
    apply path_cmp_eq. reflexivity.
Qed.

Lemma include_set_perm dirs dirs' : (forall d, In d dirs <-> In d dirs') ->
  Forall2 same_path (include_set dirs) (include_set dirs').
Proof.
  intros P. destruct (include_set_spec dirs) as [A1 [B1 C1]].
  destruct (include_set_spec dirs') as [A2 [B2 C2]].
  apply (increasing_same path_cmp path_cmp_sym (fun x y z => path_cmp_eq_l x y z)); auto.
  - intros x X. apply C2. apply B1 in X. destruct X as [X|X]; [left; exact X|right; apply P, X].
  - intros x X. apply C1. apply B2 in X. destruct X as [X|X]; [left; exact X|right; apply P, X].
Qed.

(** ** The extension *)

Lemma take_name_plain n r : Forall (fun c => c <> "/"%char) n ->
  take_name (n ++ "/"%char :: r) = (n, "/"%char :: r).
Proof.
  induction n as [|c n IH]; intros H; [reflexivity|]. inversion H; subst. cbn.
  destruct (ch c "/") eqn:Q; [apply Ascii.eqb_eq in Q; congruence|]. rewrite IH by assumption. reflexivity.
Qed.
Lemma take_name_all n : Forall (fun c => c <> "/"%char) n -> take_name n = (n, []).
Proof.
  induction n as [|c n IH]; intros H; [reflexivity|]. inversion H; subst. cbn.
  destruct (ch c "/") eqn:Q; [apply Ascii.eqb_eq in Q; congruence|]. rewrite IH by assumption. reflexivity.
Qed.

Lemma trim_name name r : plain_name name -> (r = [] \/ exists r', r = "/"%char :: r') ->
  trim_rev (rev name ++ r) = rev name ++ r.
Proof.
  intros [P N] R. assert (P' : Forall (fun c => c <> "/"%char) (rev name)) by (apply Forall_rev, P).
  destruct (rev name) as [|c m] eqn:RN.
  { exfalso. apply N. left. apply (f_equal (@rev ascii)) in RN. rewrite rev_involutive in RN. auto. }
  inversion P' as [|? ? Pc Pm]; subst. cbn [app trim_rev].
  destruct (ch c "/") eqn:Q; [apply Ascii.eqb_eq in Q; congruence|].
  destruct (ch c ".") eqn:Q2; [|reflexivity]. apply Ascii.eqb_eq in Q2. subst c.
  destruct m as [|d m]; cbn [app].
  - exfalso. apply N. right. left. apply (f_equal (@rev ascii)) in RN. rewrite rev_involutive in RN. auto.
  - inversion Pm; subst. destruct (ch d "/") eqn:Q9; [apply Ascii.eqb_eq in Q9; congruence|]. reflexivity.
Qed.

Lemma trim_tidy dir : tidy_dir dir -> trim_rev (rev dir) = rev dir.
Proof.
  intros [H0 [H1 H2]]. destruct (rev dir) as [|c r] eqn:R.
  { reflexivity. }
  assert (D : dir = rev r ++ [c]).
  { apply (f_equal (@rev ascii)) in R. rewrite rev_involutive in R. exact R. }
  cbn. destruct (ch c "/") eqn:Q.
  { apply Ascii.eqb_eq in Q. subst c. exfalso. apply (H1 (rev r)). exact D. }
  destruct (ch c ".") eqn:Q2; [|reflexivity]. apply Ascii.eqb_eq in Q2. subst c.
  destruct r as [|d r]; [reflexivity|]. destruct (ch d "/") eqn:Q3; [|reflexivity].
  apply Ascii.eqb_eq in Q3. subst d. exfalso. apply (H2 (rev r)). rewrite D. cbn. rewrite <- app_assoc. reflexivity.
Qed.

Lemma not_special name : plain_name name ->
  beq name [] || beq name (b ".") || beq name (b "..") = false.
Proof.
  intros [_ N]. destruct (beq name []) eqn:A; [apply beq_eq in A; exfalso; apply N; cbn; auto|].
  destruct (beq name (b ".")) eqn:B; [apply beq_eq in B; exfalso; apply N; cbn; auto|].
  destruct (beq name (b "..")) eqn:C; [apply beq_eq in C; exfalso; apply N; cbn; auto|]. reflexivity.
Qed.

Lemma last_byte_tidy dir : tidy_dir dir -> exists c, last_byte dir = Some c /\ ch c "/" = false.
Proof.
  intros [H0 [H1 _]]. unfold last_byte. destruct (rev dir) as [|c r] eqn:R.
  { exfalso. apply H0. apply (f_equal (@rev ascii)) in R. rewrite rev_involutive in R. exact R. }
  exists c. split; [reflexivity|]. destruct (ch c "/") eqn:Q; [|reflexivity].
  apply Ascii.eqb_eq in Q. subst c. exfalso. apply (H1 (rev r)).
  apply (f_equal (@rev ascii)) in R. rewrite rev_involutive in R. exact R.
Qed.

Lemma plain_relative name s : plain_name name -> is_absolute (name ++ s) = false.
Proof.
  intros [P N]. destruct name as [|c name]; [exfalso; apply N; left; reflexivity|].
  inversion P; subst. cbn. destruct (ch c "/") eqn:Q; [apply Ascii.eqb_eq in Q; congruence|reflexivity].
Qed.

Lemma join_tidy dir name s : tidy_dir dir -> plain_name name ->
  path_join dir (name ++ s) = dir ++ b "/" ++ name ++ s.
Proof.
  intros T P. unfold path_join. rewrite (plain_relative _ _ P).
  destruct (last_byte_tidy dir T) as [c [-> Q]]. rewrite Q. reflexivity.
Qed.

Lemma with_sex_dir dir name : tidy_dir dir -> plain_name name ->
  with_sex (dir ++ b "/" ++ name) = Some (dir ++ b "/" ++ name ++ b ".sex").
Proof.
  intros T P. unfold with_sex, file_name.
  assert (R : rev (dir ++ b "/" ++ name) = rev name ++ "/"%char :: rev dir).
  { rewrite !rev_app_distr. cbn. rewrite <- app_assoc. reflexivity. }
  rewrite R, trim_name by eauto.
  rewrite take_name_plain by (apply Forall_rev, P). rewrite rev_involutive, (not_special _ P).
  f_equal. replace (rev (trim_rev ("/"%char :: rev dir))) with dir.
  - apply join_tidy; assumption.
  - destruct T as [T0 T]. cbn [trim_rev ch]. 
    destruct (rev dir) as [|c r] eqn:RD.
    { exfalso. apply T0. apply (f_equal (@rev ascii)) in RD. rewrite rev_involutive in RD. exact RD. }
    change (ch "/" "/") with true. cbv iota. rewrite <- RD, trim_tidy by (split; assumption).
    symmetry. apply rev_involutive.
Qed.

Lemma with_sex_name name : plain_name name -> with_sex name = Some (name ++ b ".sex").
Proof.
  intros P. unfold with_sex, file_name.
  rewrite <- (app_nil_r (rev name)), trim_name by auto. rewrite app_nil_r.
  rewrite take_name_all by (apply Forall_rev, P). rewrite rev_involutive, (not_special _ P).
  f_equal. cbn. unfold path_join. rewrite (plain_relative _ _ P). reflexivity.
Qed.
