(** * Proofs about definitions, calls and control macros *)

From Coq Require Import String List Ascii Bool Arith NArith Lia Permutation.
From Verif Require Import Text Res Ast Args Env Scope State Bind Data Sorting Expander Numbers
  Spec_args Spec_expand Spec_builtin Spec_bind Spec_control Proofs_text Proofs_ast Proofs_run
  Proofs_eval Proofs_args Proofs_builtin Proofs_simple Proofs_bind.
Import ListNotations.

Lemma received_head (n : node) ns :
  exists w, received (n :: ns) = set_ws w n :: ns /\ (w = [] \/ w = leading_ws n).
Proof.
  unfold received. destruct (has LF (leading_ws n)).
  - exists (leading_ws n). rewrite set_ws_same. auto.
  - exists []. auto.
Qed.

Section WithEnv.
Variable E : env.

Notation ex f := (fun n s => run E f (TNode n) s).
Notation inv f := (fun name c ps s => run E f (TInvoke name c ps) s).

Lemma settles_ok_not {A} (m : nat -> res A) : ~ settles m OutOfFuel.
Proof. intros [N _]. congruence. Qed.

(** Sequencing, in both forms. *)
Lemma settles_seq {A B} (m : nat -> res A) (k : nat -> A -> res B) r :
  growing m ->
  settles (fun f => bind (m f) (k f)) r <->
  exists q, settles m q /\
    match q with Ok a => settles (fun f => k f a) r | _ => fails q r end.
Proof.
  intros G. rewrite (settles_bind m k r G). split.
  - intros [[a [S1 S2]] | [q [S1 F]]].
    + exists (Ok a). auto.
    + exists q. split; [exact S1|]. destruct q; try exact F. contradiction.
  - intros [q [S1 H]]. destruct q as [a|e|p| |]; [left; eauto|right; eauto ..].
Qed.

Lemma growing_bind {A B} (m : nat -> res A) (k : nat -> A -> res B) :
  growing m -> (forall a, growing (fun f => k f a)) -> growing (fun f => bind (m f) (k f)).
Proof. intros G K f f' L. apply le_bind; [apply G, L|]. intros a. apply K, L. Qed.

Lemma growing_for p items body s : growing (fun f => for_each E (ex f) p items body s).
Proof. intros f f' L. apply le_for_each. intros. apply run_le, L. Qed.
Lemma growing_match v cl s : growing (fun f => match_clauses E (ex f) v cl s).
Proof. intros f f' L. apply le_match_clauses. intros. apply run_le, L. Qed.
Lemma growing_map d k c ns s : growing (fun f => map_each (inv f) d k c ns s).
Proof. intros f f' L. apply le_map_each. intros. apply run_le, L. Qed.
Lemma growing_sort k c st ns s : growing (fun f => sort_keys (inv f) k c st ns s).
Proof. intros f f' L. apply le_sort_keys. intros. apply run_le, L. Qed.

(** ** Definitions *)

Lemma put_defines s name m :
  defines s name m (set_defs (put name m (x_defs s)) s).
Proof.
  split; [apply get_put_same|]. split; [|split; reflexivity].
  intros k N. apply get_put_other, N.
Qed.

Lemma defines_put s name m s' :
  defines s name m s' -> s' = set_defs (put name m (x_defs s)) s.
Proof.
  intros [A [B [C D]]]. destruct s' as [d v w]. cbn in *. subst. unfold set_defs. f_equal.
  apply scope_ext. intros k. destruct (beq k name) eqn:K.
  - apply beq_eq in K. subst. rewrite get_put_same. exact A.
  - apply beq_neq in K. rewrite get_put_other by exact K. apply B, K.
Qed.

Lemma eval_define_var a body n s r :
  is_call (b "define") (Sym a :: body) n ->
  eval E n s r <->
  exists q, evals E body (entered n s) q /\
    match q with
    | Ok (vs, s1) => exists s2, r = Ok ([], s2) /\ defines s1 (a_val a) (variable vs) s2
    | _ => fails q r
    end.
Proof.
  intros C. rewrite (eval_builtin E (b "define") BDefine _ n s r eq_refl C).
  destruct (received_head (Sym a) body) as [w [-> _]].
  assert (S1 : settles (fun f => run_builtin E (ex f) (inv f) BDefine (ref n s)
                 (set_ws w (Sym a) :: body) (entered n s)) r <->
    settles (fun f => bind (exs (ex f) body (entered n s)) (fun '(vs, s1) =>
               Ok ([], set_defs (put (a_val a) (variable vs) (x_defs s1)) s1))) r).
  { apply settles_ext. intros f. reflexivity. }
  rewrite S1, settles_seq by apply growing_exs.
  split; intros [q [Q H]]; exists q; (split; [exact Q|]); destruct q as [[vs s1]|e|p| |]; try exact H.
  - apply settles_const_iff in H as [-> _]. eexists. split; [reflexivity|]. apply put_defines.
  - destruct H as [s2 [-> D]]. apply defines_put in D. subst. apply settles_const. discriminate.
Qed.

Lemma amp_rest params : length (List.filter amp params) = length (rest_names params).
Proof.
  unfold rest_names. induction params as [|n ps IH]; [reflexivity|]. cbn [List.filter flat_map].
  rewrite app_length.
  assert (K : amp n = is_some (rest_name n)).
  { destruct (param_kinds n) as [[k [v [st [w ->]]]] | [NA [K | [K | K]]]]; [reflexivity| | |].
    - destruct K as [x [K1 [K2 K3]]]. rewrite K3. unfold is_rest_kw in K1. unfold amp.
      destruct (symbol n) as [y|]; [|reflexivity]. destruct (starts_with (b "&&") (a_val y)); [|discriminate].
      apply andb_false_r.
    - destruct K as [x [K1 [K0 [K2 K3]]]]. rewrite K2. unfold is_rest_kw in K1. unfold is_rest in K0. unfold amp.
      destruct (symbol n) as [y|]; [|discriminate]. destruct (starts_with (b "&&") (a_val y)); [discriminate|].
      destruct (starts_with (b "&") (a_val y)); [reflexivity|discriminate].
    - destruct K as [K1 [K0 [K2 K3]]]. rewrite K2. unfold is_rest in K0. unfold amp.
      destruct (symbol n) as [y|]; [|reflexivity].
      destruct (starts_with (b "&") (a_val y)); [discriminate|reflexivity]. }
  rewrite K. destruct (rest_name n); cbn; rewrite IH; reflexivity.
Qed.

Lemma ampamp_rest params : length (List.filter ampamp params) = length (kwrest_names params).
Proof.
  unfold kwrest_names. induction params as [|n ps IH]; [reflexivity|]. cbn [List.filter flat_map].
  rewrite app_length.
  assert (K : ampamp n = is_some (kwrest_name n)).
  { destruct (param_kinds n) as [[k [v [st [w ->]]]] | [NA [K | [K | K]]]]; [reflexivity| | |].
    - destruct K as [x [K1 [K2 K3]]]. rewrite K2. unfold is_rest_kw in K1. unfold ampamp.
      destruct (symbol n) as [y|]; [|discriminate]. destruct (starts_with (b "&&") (a_val y)); [reflexivity|discriminate].
    - destruct K as [x [K1 [K0 [K2 K3]]]]. rewrite K3. unfold is_rest_kw in K1. unfold ampamp.
      destruct (symbol n) as [y|]; [|reflexivity]. destruct (starts_with (b "&&") (a_val y)); [discriminate|reflexivity].
    - destruct K as [K1 [K0 [K2 K3]]]. rewrite K3. unfold is_rest_kw in K1. unfold ampamp.
      destruct (symbol n) as [y|]; [|reflexivity].
      destruct (starts_with (b "&&") (a_val y)); [discriminate|reflexivity]. }
  rewrite K. destruct (kwrest_name n); cbn; rewrite IH; reflexivity.
Qed.

Lemma create_macro_cases name params body s :
  (length (rest_names params) <= 1 /\ length (kwrest_names params) <= 1 /\
   create_macro name params body s = Ok (set_defs (put name (Macro params body) (x_defs s)) s)) \/
  ((1 < length (rest_names params) \/ 1 < length (kwrest_names params)) /\
   exists st, create_macro name params body s = Err (EErr EBindMultiRest st)).
Proof.
  rewrite <- amp_rest, <- ampamp_rest. unfold create_macro.
  destruct (List.filter amp params) as [|x1 [|x2 l]]; cbn [length];
    [|  | right; split; [lia|]; eexists; reflexivity].
  all: destruct (List.filter ampamp params) as [|y1 [|y2 l']]; cbn [length];
    [left; split; [lia|]; split; [lia|reflexivity] .. | right; split; [lia|]; eexists; reflexivity].
Qed.

Lemma eval_define_fun a params body st ew es w n s r :
  is_call (b "define") (Lst (Sym a :: params) st ew es w :: body) n ->
  eval E n s r <->
  (length (rest_names params) <= 1 /\ length (kwrest_names params) <= 1 /\
   exists s2, r = Ok ([], s2) /\ defines (entered n s) (a_val a) (Macro params body) s2) \/
  ((1 < length (rest_names params) \/ 1 < length (kwrest_names params)) /\
   r = bind (create_macro (a_val a) params body (entered n s)) (fun s1 => Ok ([], s1))).
Proof.
  intros C. rewrite (eval_builtin E (b "define") BDefine _ n s r eq_refl C).
  destruct (received_head (Lst (Sym a :: params) st ew es w) body) as [w' [-> _]].
  assert (S1 : settles (fun f => run_builtin E (ex f) (inv f) BDefine (ref n s)
                 (set_ws w' (Lst (Sym a :: params) st ew es w) :: body) (entered n s)) r <->
    settles (fun f => bind (create_macro (a_val a) params body (entered n s)) (fun s1 => Ok ([], s1))) r).
  { apply settles_ext. intros f. reflexivity. }
  rewrite S1, settles_const_iff. clear S1.
  destruct (create_macro_cases (a_val a) params body (entered n s)) as [[A [B Q]]|[A [st' Q]]]; rewrite Q; cbn [bind].
  - split.
    + intros [-> _]. left. split; [exact A|]. split; [exact B|]. eexists. split; [reflexivity|].
      apply put_defines.
    + intros [[_ [_ [s2 [-> D]]]] | [H _]]; [|lia]. apply defines_put in D. subst.
      split; [reflexivity|discriminate].
  - split.
    + intros [-> _]. right. auto.
    + intros [[A' [B' _]] | [_ ->]]; [lia|]. split; [reflexivity|discriminate].
Qed.

(** ** User macros *)

Hypothesis ORDER : forall seed l, Permutation (e_order E seed l) l.

Lemma bind_node_cases p v s :
  (exists s1 l, bound E p v s s1 l) \/
  ((forall l, ~ binds p v l) /\ exists e, bind_node E p v s = Err e).
Proof.
  destruct (bind_node_spec E ORDER p) as [A [B C]]. specialize (C v s).
  destruct C as [[s1 C]|[e C]].
  - left. destruct (A v s s1 C) as [l H]. exists s1, l. split; [exact C|exact H].
  - right. split; [|eauto]. intros l H. destruct (B v l s H) as [s1 H']. congruence.
Qed.

Lemma bind_list_cases st ps vs s :
  (exists s1 l, bound_list E st ps vs s s1 l) \/
  ((forall l, ~ binds_list ps vs l) /\ exists e, bind_list E st ps vs s = Err e).
Proof.
  assert (F : Forall (bind_spec (bind_node E)) ps).
  { apply Forall_forall. intros p _. apply bind_node_spec, ORDER. }
  destruct (bind_list_spec E ORDER (bind_node E) st ps F) as [A [B C]]. specialize (C vs s).
  destruct C as [[s1 C]|[e C]].
  - left. destruct (A vs s s1 C) as [l H]. exists s1, l. split; [exact C|exact H].
  - right. split; [|eauto]. intros l H. destruct (B vs l s H) as [s1 H']. unfold bind_list in C. congruence.
Qed.

Lemma closed_bind s (q : out) :
  bind q (fun '(x, s1) => Ok (x, x_defs s1, left_ s s1)) =
  match q with
  | Ok (x, s1) => Ok (x, x_defs s1, left_ s s1)
  | Err e => Err e | Panic p => Panic p | Hang => Hang | OutOfFuel => OutOfFuel end.
Proof. destruct q as [[x s1]| | | |]; reflexivity. Qed.

Lemma in_frame_closed (m : state -> out) s :
  bind (in_frame m s) (fun '(ns, _, s) => Ok (ns, s)) = closed s (m (copied s)).
Proof.
  unfold in_frame. change (State (x_defs s) (vec_clone (x_vec s)) (x_world s)) with (copied s).
  destruct (m (copied s)) as [[x s1]| | | |]; reflexivity.
Qed.

Lemma settles_closed (m : nat -> out) s r :
  growing m -> settles (fun f => closed s (m f)) r <-> exists q, settles m q /\ r = closed s q.
Proof.
  intros G.
  rewrite (settles_ext _ (fun f => bind (m f) (fun '(ns, s1) => Ok (ns, left_ s s1)))).
  2: { intros f. destruct (m f) as [[]| | | |]; reflexivity. }
  rewrite settles_then by exact G. split.
  - intros [q [Q [-> _]]]. exists q. split; [exact Q|]. destruct q as [[]| | | |]; reflexivity.
  - intros [q [Q ->]]. exists q. split; [exact Q|]. destruct Q as [N _].
    destruct q as [[]| | | |]; (split; [reflexivity|cbn; congruence]).
Qed.

Lemma applied st m c vs s r :
  call_site c = st ->
  settles (fun f => apply_macro E (ex f) m c vs s) r <-> called E st m vs s r.
Proof.
  intros <-.
  rewrite (settles_ext _ (fun f => closed s (bind (bind_list E (call_site c) (m_params m) vs (copied s))
                                      (fun s1 => exs (ex f) (m_body m) s1)))).
  2: { intros f. unfold apply_macro. apply in_frame_closed. }
  destruct (bind_list_cases (call_site c) (m_params m) vs (copied s)) as [[s1 [l B]] | [N [e B]]].
  - assert (B' := B). destruct B' as [Q _]. rewrite Q. cbn [bind]. rewrite settles_closed by apply growing_exs.
    split.
    + intros [q [S1 ->]]. econstructor; eauto.
    + intros H. inversion H as [s1' l' q B' S1|e' N' B']; subst.
      * destruct B' as [Q' _]. rewrite Q in Q'. inversion Q'; subst. exists q. auto.
      * rewrite Q in B'. discriminate.
  - rewrite B. cbn [bind closed]. rewrite settles_const_iff. split.
    + intros [-> _]. constructor; assumption.
    + intros H. inversion H as [s1' l' q B' S1|e' N' B']; subst.
      * destruct B' as [Q' _]. congruence.
      * split; [congruence|discriminate].
Qed.

Lemma invokes_macro name c args s r :
  find_builtin name = None ->
  invokes E name c args s r <->
  exists q, evals E args s q /\
    match q with
    | Ok (vs, s1) =>
        match get name (x_defs s1) with
        | Some m => called E (call_site c) m vs s1 r
        | None => r = Err (EErr EMacroNotFound (call_site c))
        end
    | _ => fails q r
    end.
Proof.
  intros F. rewrite (invokes_user E name c args s r F). unfold call_macro.
  rewrite settles_seq by apply growing_exs.
  split; intros [q [Q H]]; exists q; (split; [exact Q|]); destruct q as [[vs s1]|e|p| |]; try exact H.
  - destruct (get name (x_defs s1)) as [m|].
    + apply (applied (call_site c) m c vs s1 r eq_refl), H.
    + apply settles_const_iff in H as [-> _]. reflexivity.
  - destruct (get name (x_defs s1)) as [m|].
    + apply (applied (call_site c) m c vs s1 r eq_refl), H.
    + subst. apply settles_const. discriminate.
Qed.

Lemma eval_user name args n s r :
  find_builtin name = None -> is_call name args n ->
  eval E n s r <->
  exists q, evals E (received args) (entered n s) q /\
    match q with
    | Ok (vs, s1) =>
        match get name (x_defs s1) with
        | Some m => called E (node_site n) m vs s1 r
        | None => r = Err (EErr EMacroNotFound (node_site n))
        end
    | _ => fails q r
    end.
Proof.
  intros F C. rewrite (eval_call E name args n s r C). apply (invokes_macro name (ref n s)), F.
Qed.

(** ** %match *)

Lemma clauses_matching v cl : forall s r,
  settles (fun f => match_clauses E (ex f) v cl s) r <-> matching E v cl s r.
Proof.
  induction cl as [|clause cl IH]; intros s r; cbn [match_clauses].
  { rewrite settles_const_iff. split.
    - intros [-> _]. constructor.
    - intros H. inversion H; subst. split; [reflexivity|discriminate]. }
  destruct (list_of clause) as [[|pat body]|] eqn:L.
  - rewrite settles_const_iff. split.
    + intros [-> _]. apply matching_bad. auto.
    + intros H. inversion H; subst; try congruence. split; [reflexivity|discriminate].
  - rewrite settles_seq by apply growing_run.
    split.
    + intros [q [Q H]]. destruct q as [[ns s1]|e|p| |];
        try (eapply matching_pattern; [exact L|exact Q|exact H]).
      destruct ns as [|p [|p2 ns]].
      * apply settles_const_iff in H as [-> _]. eapply matching_many; [exact L|exact Q|discriminate].
      * destruct (bind_node_cases p v (copied s1)) as [[s2 [l B]] | [N [e B]]].
        -- assert (B' := B). destruct B' as [BE _]. unfold copied in BE. rewrite BE in H.
           assert (H' : settles (fun f => closed s1 (exs (ex f) body s2)) r).
           { revert H. apply settles_ext. intros f. rewrite in_frame_closed. unfold copied. rewrite BE. reflexivity. }
           apply settles_closed in H' as [q [Q2 ->]]; [|apply growing_exs].
           eapply matching_take; [exact L|exact Q|exact B|exact Q2].
        -- unfold copied in B. rewrite B in H. apply IH in H. eapply matching_skip; [exact L|exact Q|exact N|exact H].
      * apply settles_const_iff in H as [-> _]. eapply matching_many; [exact L|exact Q|discriminate].
    + intros H.
      inversion H as [s0|? ? ? ? ? p s1 ? L' Q N M|? ? ? ? ? p s1 s2 l q L' Q B Q2|? ? ? ? ? q ? L' Q Fq
                     |? ? ? ? ? ns s1 L' Q Ln|? ? ? Bad]; subst; try (rewrite L in L'; inversion L'; subst).
      * exists (Ok ([p], s1)). split; [exact Q|].
        destruct (bind_node_cases p v (copied s1)) as [[s2 [l B]] | [_ [e B]]].
        -- exfalso. destruct B as [_ [B _]]. exact (N l B).
        -- unfold copied in B. rewrite B. apply IH. exact M.
      * exists (Ok ([p], s1)). split; [exact Q|].
        assert (B' := B). destruct B' as [BE _]. unfold copied in BE. rewrite BE.
        match type of Q2 with evals _ ?body _ _ =>
          assert (H' : settles (fun f => closed s1 (exs (ex f) body s2)) (closed s1 q)) end.
        { apply settles_closed; [apply growing_exs|]. exists q. auto. }
        revert H'. apply settles_ext. intros f. rewrite in_frame_closed. unfold copied. rewrite BE. reflexivity.
      * exists q. split; [exact Q|]. destruct q; try exact Fq. contradiction.
      * exists (Ok (ns, s1)). split; [exact Q|].
        destruct ns as [|x [|y l]]; [| cbn in Ln; lia |]; apply settles_const; discriminate.
      * destruct Bad; congruence.
  - rewrite settles_const_iff. split.
    + intros [-> _]. apply matching_bad. auto.
    + intros H. inversion H; subst; try congruence. split; [reflexivity|discriminate].
Qed.

Lemma eval_match expr clauses n s r :
  is_call (b "match") (expr :: clauses) n ->
  eval E n s r <->
  exists e q, received (expr :: clauses) = e :: clauses /\ eval E e (entered n s) q /\
    match q with
    | Ok ([v], s1) => matching E v clauses s1 r
    | Ok _ => r = Err (EErr EMatch (node_site e))
    | _ => fails q r
    end.
Proof.
  intros C. rewrite (eval_builtin E (b "match") BMatch _ n s r eq_refl C).
  destruct (received_head expr clauses) as [w [R _]]. rewrite R. cbn [run_builtin do_match].
  rewrite settles_seq by apply growing_run. split.
  - intros [q [Q H]]. exists (set_ws w expr), q. split; [reflexivity|]. split; [exact Q|].
    destruct q as [[[|v [|v2 vs]] s1]|e|p| |]; try exact H.
    + apply settles_const_iff in H as [-> _]. reflexivity.
    + apply clauses_matching, H.
    + apply settles_const_iff in H as [-> _]. reflexivity.
  - intros [e [q [I [Q H]]]]. inversion I; subst. exists q. split; [exact Q|].
    destruct q as [[[|v [|v2 vs]] s1]|e|p| |]; try exact H.
    + subst. apply settles_const. discriminate.
    + apply clauses_matching, H.
    + subst. apply settles_const. discriminate.
Qed.

(** ** %ifdef *)

Lemma eval_ifdef cond yes no a n s r :
  is_call (b "ifdef") (cond :: yes :: no) n ->
  length no <= 1 -> atomic cond = Some a ->
  eval E n s r <->
  exists q,
    (if defined (a_val a) (x_defs s) then eval E yes (entered n s) q
     else match no with
          | [alt] => eval E alt (entered n s) q
          | _ => q = Ok ([], entered n s)
          end) /\
    match q with
    | Ok ([], s1) => r = Ok ([], s1)
    | Ok (ns, s1) => r = Ok (respaced (leading_ws n) ns, noted n s s1)
    | _ => fails q r
    end.
Proof.
  intros C L A. rewrite (eval_builtin E (b "ifdef") BIfdef _ n s r eq_refl C).
  destruct (received_head cond (yes :: no)) as [w [-> _]].
  assert (A' : exists a', atomic (set_ws w cond) = Some a' /\ a_val a' = a_val a).
  { destruct cond; try discriminate; cbn in A; inversion A; subst; cbn; eauto. }
  destruct A' as [a' [A1 A2]].
  set (K := fun '(ns, s1) => match ns with
              | [] => Ok ([], s1)
              | _ => Ok (set_first_ws (leading_ws n) ns, noted n s s1) end : out).
  assert (S1 : settles (fun f => run_builtin E (ex f) (inv f) BIfdef (ref n s)
                 (set_ws w cond :: yes :: no) (entered n s)) r <->
    settles (fun f => bind (if defined (a_val a) (x_defs s) then ex f yes (entered n s)
                  else match no with [alt] => ex f alt (entered n s) | _ => Ok ([], entered n s) end) K) r).
  { apply settles_ext. intros f. cbn [run_builtin do_ifdef].
    destruct no as [|alt [|x no]]; [| |cbn in L; lia]; rewrite A1, A2; reflexivity. }
  rewrite S1. clear S1.
  rewrite settles_seq.
  2: { destruct (defined (a_val a) (x_defs s)); [apply growing_run|].
       destruct no as [|alt [|x no]]; [apply growing_const|apply growing_run|apply growing_const]. }
  assert (Q1 : forall q, settles (fun f => if defined (a_val a) (x_defs s) then ex f yes (entered n s)
                  else match no with [alt] => ex f alt (entered n s) | _ => Ok ([], entered n s) end) q <->
     (if defined (a_val a) (x_defs s) then eval E yes (entered n s) q
     else match no with
          | [alt] => eval E alt (entered n s) q
          | _ => q = Ok ([], entered n s)
          end)).
  { intros q. destruct (defined (a_val a) (x_defs s)); [reflexivity|].
    destruct no as [|alt [|x no]]; [|reflexivity|cbn in L; lia].
    rewrite settles_const_iff. split; [tauto|]. intros ->. split; [reflexivity|discriminate]. }
  split; intros [q [Q H]]; exists q; apply Q1 in Q; (split; [exact Q|]); destruct q as [[[|x xs] s1]|e|p| |]; try exact H.
  1-2: apply settles_const_iff in H as [-> _]; reflexivity.
  all: subst; apply settles_const; discriminate.
Qed.

Lemma eval_ifdef_bad args n s r :
  is_call (b "ifdef") args n ->
  (length args < 2 \/ 3 < length args -> eval E n s r <-> r = Err (EErr EIfdef (node_site n))) /\
  (2 <= length args <= 3 -> (forall cond rest, args = cond :: rest -> atomic cond = None) ->
   eval E n s r <-> exists st, r = Err (EErr EIfdef st)
     /\ forall cond rest, args = cond :: rest -> st = node_site cond).
Proof.
  intros C.
  assert (NS : forall w m, node_site (set_ws w m) = node_site m) by (intros w []; reflexivity).
  split.
  - intros L. rewrite (eval_builtin E (b "ifdef") BIfdef _ n s r eq_refl C).
    rewrite (settles_ext _ (fun _ => Err (EErr EIfdef (node_site n)))).
    2: { intros f. destruct args as [|c1 [|c2 [|c3 [|c4 l]]]]; cbn in L; try lia; reflexivity. }
    rewrite settles_const_iff. split; [tauto|]. intros ->. split; [reflexivity|discriminate].
  - intros L A. destruct args as [|c1 rest]; [cbn in L; lia|].
    rewrite (eval_builtin E (b "ifdef") BIfdef _ n s r eq_refl C).
    destruct (received_head c1 rest) as [w [-> _]].
    assert (A1 : atomic (set_ws w c1) = None).
    { specialize (A c1 rest eq_refl). destruct c1; cbn in *; congruence. }
    rewrite (settles_ext _ (fun _ => Err (EErr EIfdef (node_site c1)))).
    2: { intros f. cbn [run_builtin do_ifdef].
         destruct rest as [|c2 [|c3 [|c4 l]]]; cbn in L; try lia; rewrite A1, NS; reflexivity. }
    rewrite settles_const_iff. split.
    + intros [-> _]. exists (node_site c1). split; [reflexivity|]. intros cond rest' I. inversion I; reflexivity.
    + intros [st [-> H]]. rewrite (H c1 rest eq_refl). split; [reflexivity|discriminate].
Qed.

(** ** %for *)

Lemma followed_bind xs (q : out) :
  bind q (fun '(ys, s) => Ok (xs ++ ys, s)) = followed xs q.
Proof. destruct q as [[]| | | |]; reflexivity. Qed.

Lemma settles_followed (m : nat -> out) xs r :
  growing m -> settles (fun f => bind (m f) (fun '(ys, s) => Ok (xs ++ ys, s))) r <->
  exists q, settles m q /\ r = followed xs q.
Proof.
  intros G. rewrite settles_then by exact G. split.
  - intros [q [Q [-> _]]]. exists q. split; [exact Q|apply followed_bind].
  - intros [q [Q ->]]. exists q. split; [exact Q|]. rewrite followed_bind. split; [reflexivity|].
    destruct Q as [N _]. destruct q as [[]| | | |]; cbn; congruence.
Qed.

Lemma for_looping p body items : forall s r,
  settles (fun f => for_each E (ex f) p items body s) r <-> looping E p body items s r.
Proof.
  induction items as [|i items IH]; intros s r; cbn [for_each].
  { rewrite settles_const_iff. split.
    - intros [-> _]. constructor.
    - intros H. inversion H; subst. split; [reflexivity|discriminate]. }
  destruct (bind_node_cases p i s) as [[s1 [l B]] | [N [e B]]].
  - assert (B' := B). destruct B' as [BE _]. rewrite BE. cbn [bind].
    rewrite settles_seq by apply growing_exs. split.
    + intros [q [Q H]]. destruct q as [[xs s2]|e|pn| |];
        try (eapply loop_body; [exact B|exact Q|exact H]).
      apply settles_followed in H as [q [Q2 ->]]; [|apply growing_for]. apply IH in Q2.
      eapply loop_round; [exact B|exact Q|exact Q2].
    + intros H. inversion H as [|? ? ? s1' ? xs s2 q B' Q M|? ? ? s1' ? q ? B' Q Fq|? ? ? e N B']; subst.
      * destruct B' as [BE' _]. rewrite BE in BE'. inversion BE'; subst.
        exists (Ok (xs, s2)). split; [exact Q|]. apply settles_followed; [apply growing_for|].
        exists q. split; [apply IH; exact M|reflexivity].
      * destruct B' as [BE' _]. rewrite BE in BE'. inversion BE'; subst.
        exists q. split; [exact Q|]. destruct q; try exact Fq. contradiction.
      * congruence.
  - rewrite B. cbn [bind]. rewrite settles_const_iff. split.
    + intros [-> _]. apply loop_mismatch; assumption.
    + intros H. inversion H as [|? ? ? s1' ? xs s2 q B' Q M|? ? ? s1' ? q ? B' Q Fq|? ? ? e' N' B']; subst.
      * destruct B' as [BE' _]. congruence.
      * destruct B' as [BE' _]. congruence.
      * split; [congruence|discriminate].
Qed.
End WithEnv.
