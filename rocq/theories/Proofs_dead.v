(** * Proof of C75: a definition that nothing mentions makes no difference *)

From Coq Require Import String List Ascii Bool Arith NArith ZArith Permutation Lia.
From Verif Require Import Text Utf8 Res Ast Env Scope State Numbers Data Sorting Paths Parser
  Spec_args Spec_expand Spec_builtin Spec_bind Spec_control Spec_sort Spec_data Spec_world Spec_errors Spec_scope Spec_place
  Spec_events Spec_final Spec_keep Spec_dead Proofs_text Proofs_scope Proofs_args Proofs_simple Proofs_builtin Proofs_sort Proofs_bind
  Proofs_data Proofs_keep Proofs_events Proofs_place Proofs_final.
From Verif Require Import Args Expander Spec_lang.
Import ListNotations.

(** ** Properties of nodes that hold of their parts *)

Section Parts.
Variable P : node -> Prop.
Hypothesis IN_LIST : forall l st ew es w, P (Lst l st ew es w) -> Forall P l.
Hypothesis IN_ATTR : forall k v st w, P (Attr k v st w) -> P v.
Hypothesis IN_WS : forall w n, P n -> P (set_ws w n).

Lemma p_received l : Forall P l -> Forall P (received l).
Proof.
  destruct l as [|n l]; [auto|]. intros H. inversion H; subst. cbn.
  destruct (has LF (leading_ws n)); constructor; auto.
Qed.
Lemma p_in l l' : incl l' l -> Forall P l -> Forall P l'.
Proof. rewrite !Forall_forall. auto. Qed.
Lemma p_positionals l : Forall P l -> Forall P (positionals l).
Proof. apply p_in. intros x I. apply in_positionals in I. apply I. Qed.
Lemma p_drop l : forall k, Forall P l -> Forall P (drop_positionals k l).
Proof.
  induction l as [|p l IH]; intros [|k] H; cbn; try assumption. inversion H; subst.
  destruct p; try (apply IH; assumption). constructor; [assumption|]. apply IH. assumption.
Qed.
Lemma p_keyword k l v : Forall P l -> keyword_value k l = Some v -> P v.
Proof.
  intros H K. apply keyword_in in K as [st [w I]]. rewrite Forall_forall in H. apply H in I. exact (IN_ATTR _ _ _ _ I).
Qed.
Lemma p_final_attrs l : Forall P l -> Forall P (final_attrs l).
Proof.
  induction l as [|n l IH]; [auto|]. intros H. inversion H; subst. cbn. destruct n; auto.
  destruct (is_some (keyword_value _ l)); auto.
Qed.
Definition p_assigns : assignments -> Prop := Forall (fun x => Forall P (snd x)).
Lemma p_one_rest names ns l : one_rest names ns l -> Forall P ns -> p_assigns l.
Proof. intros [|name ns'] H; constructor; [exact H|constructor]. Qed.
Lemma p_bindings pats vals : Forall P pats -> Forall P vals ->
  p_assigns (map (keyword_binding vals) (final_attrs pats)).
Proof.
  intros HP HV. apply p_final_attrs in HP. unfold p_assigns. rewrite Forall_map. revert HP. apply Forall_impl.
  intros n H. destruct n; cbn; try constructor. 2: constructor.
  destruct (keyword_value keyword vals) as [v|] eqn:K; [exact (p_keyword _ _ _ HV K)|exact (IN_ATTR _ _ _ _ H)].
Qed.
Lemma p_binds :
  (forall p v l, binds p v l -> P p -> P v -> p_assigns l) /\
  (forall ps vs l, binds_list ps vs l -> Forall P ps -> Forall P vs -> p_assigns l) /\
  (forall ps vs l, binds_each ps vs l -> Forall P ps -> Forall P vs -> p_assigns l).
Proof.
  apply (binds_mutind
    (fun p v l _ => P p -> P v -> p_assigns l)
    (fun ps vs l _ => Forall P ps -> Forall P vs -> p_assigns l)
    (fun ps vs l _ => Forall P ps -> Forall P vs -> p_assigns l)); intros; try (constructor; fail).
  - constructor; [|constructor]. cbn. constructor; [assumption|constructor].
  - eauto.
  - apply H; eapply IN_LIST; eassumption.
  - unfold p_assigns. rewrite !Forall_app. split; [|split; [|split]].
    + apply H; [eapply p_in; [apply incl_filter|assumption]|].
      apply (p_in (positionals vals)); [intros x I; rewrite <- (firstn_skipn (length (ordinary pats))); apply in_or_app; auto|].
      apply p_positionals. assumption.
    + eapply p_one_rest; [eassumption|].
      apply (p_in (positionals vals)); [intros x I; rewrite <- (firstn_skipn (length (ordinary pats))); apply in_or_app; auto|].
      apply p_positionals. assumption.
    + eapply Permutation_Forall; [symmetry; eassumption|]. apply p_bindings; assumption.
    + eapply p_one_rest; [eassumption|]. eapply p_in; [intros x; apply Permutation_in; eassumption|].
      eapply p_in; [apply incl_filter|]. apply p_final_attrs. assumption.
  - inversion H1; inversion H2; subst. apply Forall_app. split; [apply H|apply H0]; assumption.
Qed.
End Parts.

(** ** Assignments do not depend on the definitions before *)

Definition with_spot (d : scope) (s : spot) : spot := Spot (p_key s) (p_names s) (p_done s) d.

Section Yaml.
Variable Q : bytes -> Prop.
Variable sep : bytes.
Variable st : site.
Notation fin := (all_syms Q).
(** [r], reached from [s] by [R], is reached from other definitions with the
    same assignments. *)
Definition shifts (R : spot -> res spot -> Prop) (s : spot) (r : res spot) : Prop :=
  match r with
  | Ok s1 => exists l, p_defs s1 = assign l (p_defs s) /\ assigns_syms Q l /\ Forall fin (p_done s1) /\
      forall d, R (with_spot d s) (Ok (with_spot (assign l d) s1))
  | Panic q => forall d, R (with_spot d s) (Panic q)
  | _ => True
  end.

Lemma assign_snoc l k v d : assign (l ++ [(k, v)]) d = put k (variable v) (assign l d).
Proof. unfold assign. rewrite fold_left_app. reflexivity. Qed.
Lemma assigns_snoc l k v : assigns_syms Q l -> Forall fin v -> assigns_syms Q (l ++ [(k, v)]).
Proof. intros A V. apply Forall_app. split; [exact A|]. constructor; [exact V|constructor]. Qed.
Lemma one_fin x : fin x -> Forall fin [x].
Proof. intros H. constructor; [exact H|constructor]. Qed.

Lemma entry_shifts :
  (forall p s x r, Entry sep st p s x r -> Forall fin (p_done s) -> shifts (fun s r => Entry sep st p s x r) s r) /\
  (forall p s l r, Entries sep st p s l r -> Forall fin (p_done s) -> shifts (fun s r => Entries sep st p s l r) s r).
Proof.
  apply (entry_mutind sep st
    (fun p s x r => Forall fin (p_done s) -> shifts (fun s r => Entry sep st p s x r) s r)
    (fun p s l r => Forall fin (p_done s) -> shifts (fun s r => Entries sep st p s l r) s r)).
  - intros p s H. exists []. split; [reflexivity|]. split; [constructor|]. split; [exact H|]. intros d. constructor.
  - intros s v K H. exists []. split; [reflexivity|]. split; [constructor|]. split; [exact H|]. intros d. apply (en_key sep st (with_spot d s) v). exact K.
  - intros p s v name N H. exists [(join sep (p_names s ++ [name]), [string_of st (b " ") v])]. split; [reflexivity|].
    split; [constructor; [apply one_fin; constructor|constructor]|]. split.
    + cbn. apply snoc_every; [exact H|]. apply labelled_syms. intros w. constructor.
    + intros d. apply (en_scalar sep st p (with_spot d s) v name). exact N.
  - intros s v H. exists []. split; [reflexivity|]. split; [constructor|]. split.
    + cbn. apply snoc_every; [exact H|constructor].
    + intros d. apply (en_document sep st (with_spot d s) v).
  - intros p s k l last s1 names name _ IH N H. destruct (IH (List.Forall_nil _)) as [la [A [B [C D]]]].
    exists (la ++ [(join sep (names ++ [name]), [list_of_all st (lead (p_done s)) (p_done s1)])]). split; [|split; [|split]].
    + cbn. rewrite A, assign_snoc. reflexivity.
    + apply assigns_snoc; [exact B|]. apply one_fin, list_all_syms, C.
    + cbn. apply snoc_every; [exact H|]. apply labelled_syms. intros w. apply list_all_syms, C.
    + intros d. rewrite assign_snoc. apply (en_nested sep st p (with_spot d s) k l last (with_spot (assign la d) s1) names name (D d) N).
  - intros p s k l last s1 _ IH N M H. destruct (IH (List.Forall_nil _)) as [la [A [B [C D]]]]. exists la. split; [exact A|]. split; [exact B|]. split.
    + cbn. apply snoc_every; [exact H|]. apply list_all_syms, C.
    + intros d. apply (en_nameless sep st p (with_spot d s) k l last (with_spot (assign la d) s1) (D d) N M).
  - intros s k l last s1 _ IH N H. destruct (IH (List.Forall_nil _)) as [la [A [B [C D]]]].
    intros d. apply (en_panics sep st (with_spot d s) k l last (with_spot (assign la d) s1) (D d) N).
  - intros p s k l last q _ IH H d. apply (en_inside sep st p (with_spot d s) k l last q). apply (IH (List.Forall_nil _) d).
  - intros p s H. exists []. split; [reflexivity|]. split; [constructor|]. split; [exact H|]. intros d. constructor.
  - intros p s x l s1 r _ IH1 _ IH2 H. destruct (IH1 H) as [la [A [B [C D]]]]. specialize (IH2 C). destruct r as [s2| |q| |]; try exact I.
    + destruct IH2 as [lb [A' [B' [C' D']]]]. exists (la ++ lb). split; [|split; [|split]].
      * rewrite A', A. unfold assign. rewrite fold_left_app. reflexivity.
      * apply Forall_app. auto.
      * exact C'.
      * intros d. eapply ens_cons; [exact (D d)|]. specialize (D' (assign la d)). unfold assign in *. rewrite fold_left_app. exact D'.
    + intros d. eapply ens_cons; [exact (D d)|]. exact (IH2 (assign la d)).
  - intros p s x l q _ IH H d. apply ens_panic. exact (IH H d).
Qed.
Lemma stream_shifts p s es r : Stream sep st p s es r -> Forall fin (p_done s) -> shifts (fun s r => Stream sep st p s es r) s r.
Proof.
  assert (J : forall la lb d, assign lb (assign la d) = assign (la ++ lb) d).
  { intros. unfold assign. rewrite fold_left_app. reflexivity. }
  induction 1 as [p s l s1 N|p s l s1 k es r N S IH|s l s1 s2 k es r N X S IH|p s l es q N]; intros H.
  - destruct (proj2 entry_shifts _ _ _ _ N H) as [la [A [B [C D]]]]. exists la. split; [exact A|]. split; [exact B|]. split; [exact C|].
    intros d. apply st_all, D.
  - destruct (proj2 entry_shifts _ _ _ _ N H) as [la [A [B [C D]]]]. specialize (IH (List.Forall_nil _)). destruct r as [s2| |q| |]; try exact I.
    + destruct IH as [lb [A' [B' [C' D']]]]. exists (la ++ lb). rewrite A'. cbn. rewrite A, J. split; [reflexivity|].
      split; [apply Forall_app; auto|]. split; [exact C'|]. intros d. eapply st_open; [exact (D d)|]. specialize (D' (assign la d)).
      rewrite J in D'. exact D'.
    + intros d. eapply st_open; [exact (D d)|]. exact (IH (assign la d)).
  - destruct (proj2 entry_shifts _ _ _ _ N H) as [la [A [B [C D]]]].
    assert (Y : exists lx, p_defs s2 = assign lx (p_defs s) /\ assigns_syms Q lx /\ Forall fin (p_done s2) /\
      forall d, Excess sep st (with_spot (assign la d) s1) (with_spot (assign lx d) s2)).
    { destruct X as [names name M|M].
      - exists (la ++ [(join sep (names ++ [name]), [list_of_all st [] (p_done s1)])]). split; [|split; [|split]].
        + cbn. rewrite A, assign_snoc. reflexivity.
        + apply assigns_snoc; [exact B|]. apply one_fin, list_all_syms, C.
        + cbn. apply one_fin, list_all_syms, C.
        + intros d. rewrite assign_snoc. apply (ex_named sep st (with_spot (assign la d) s1) names name M).
      - exists la. split; [exact A|]. split; [exact B|]. split; [cbn; apply one_fin, list_all_syms, C|].
        intros d. apply (ex_nameless sep st (with_spot (assign la d) s1) M). }
    destruct Y as [lx [A2 [B2 [C2 D2]]]]. specialize (IH C2). destruct r as [s3| |q| |]; try exact I.
    + destruct IH as [lb [A' [B' [C' D']]]]. exists (lx ++ lb). rewrite A', A2, J. split; [reflexivity|].
      split; [apply Forall_app; auto|]. split; [exact C'|]. intros d. eapply st_excess; [exact (D d)|exact (D2 d)|]. specialize (D' (assign lx d)).
      rewrite J in D'. exact D'.
    + intros d. eapply st_excess; [exact (D d)|exact (D2 d)|]. exact (IH (assign lx d)).
  - intros d. apply st_panic. exact (proj2 entry_shifts _ _ _ _ N H d).
Qed.
Lemma yaml_shifts E text d q d1 : YamlText E text sep st d (Ok (q, d1)) ->
  (forall ns, q = Ok ns -> Forall fin ns) /\
  exists l, d1 = assign l d /\ assigns_syms Q l /\ forall d2, YamlText E text sep st d2 (Ok (q, assign l d2)).
Proof.
  intros H. inversion H as [es s Y S|es s Y S|]; subst.
  - destruct (stream_shifts _ _ _ _ S (List.Forall_nil _)) as [l [A [B [C D]]]].
    split; [intros ns X; injection X as <-; exact C|]. exists l. split; [exact A|]. split; [exact B|].
    intros d2. apply (yt_reads E text sep st d2 es (with_spot (assign l d2) s) Y). exact (D d2).
  - destruct (stream_shifts _ _ _ _ S (List.Forall_nil _)) as [l [A [B [C D]]]].
    split; [discriminate|]. exists l. split; [exact A|]. split; [exact B|].
    intros d2. apply (yt_breaks E text sep st d2 es (with_spot (assign l d2) s) Y). exact (D d2).
Qed.
Lemma yaml_shifts_panic E text d q : YamlText E text sep st d q -> (forall x, q <> Ok x) ->
  forall d2, YamlText E text sep st d2 q.
Proof.
  intros H N d2. inversion H as [| |es ok p Y S]; subst; try (exfalso; eapply N; reflexivity).
  eapply yt_panics; [eassumption|]. exact (stream_shifts _ _ _ _ S (List.Forall_nil _) d2).
Qed.
Lemma toml_shifts E text d q d1 :
  Q (b "true") -> Q (b "false") -> (forall t, e_toml E text = Some t -> Forall Q (toml_dates (TomlTable t))) ->
  TomlText E text sep st d (q, d1) ->
  (forall ns, q = Ok ns -> Forall fin ns) /\
  exists l, d1 = assign l d /\ assigns_syms Q l /\ forall d2, TomlText E text sep st d2 (q, assign l d2).
Proof.
  intros QT QF W H. split.
  - intros ns ->. eapply toml_nodes_syms; eassumption.
  - inversion H as [t x T|T]; subst.
    + eexists. split; [reflexivity|]. split; [|intros d2; apply tt_reads; assumption].
      pose proof (values_syms Q st _ (toml_words Q _ QT QF (W _ T))) as V. unfold assigns_syms. rewrite Forall_map.
      revert V. apply Forall_impl. intros [p v] V. cbn. apply one_fin, V.
    + exists []. split; [reflexivity|]. split; [constructor|]. intros d2. apply tt_breaks. assumption.
Qed.
End Yaml.

(** ** Nodes without mention of [K] *)

Section Dead.
Variable K : bytes -> Prop.

Definition ok (v : bytes) : Prop := ~ K v /\ (forall k, K k -> v <> b "%" ++ k) /\ ~ roundabout K v.
Definition okf (v : bytes) : Prop := ok v /\ starts_with (b "%") v = false.
Definition src (n : node) : Prop := all_syms ok n /\ forall k, K k -> ~ asks k n.
Notation fin := (all_syms okf).

Lemma unmentioned_iff n : unmentioned K n <-> src n.
Proof.
  unfold src, all_syms. rewrite Forall_forall. split.
  - intros [U A I]. split; [|exact A]. intros v V. split; [|split].
    + intros J. exact (proj1 (U _ J) V).
    + intros k J ->. exact (proj2 (U _ J) V).
    + intros J. exact (I _ J V).
  - intros [S A]. constructor; [|exact A|].
    + intros k J. split; intros V; destruct (S _ V) as [S1 [S2 _]]; [exact (S1 J)|exact (S2 _ J eq_refl)].
    + intros v J V. exact (proj2 (proj2 (S _ V)) J).
Qed.
Lemma asks_symbol k n : asks k n -> In (b "%ifdef") (symbols n).
Proof.
  induction 1 as [a cond x rest st ew es w A|n ns st ew es w I H IH|key v st w H IH]; cbn.
  - left. exact A.
  - apply in_flat_map. exists n. auto.
  - exact IH.
Qed.
Lemma fin_src n : fin n -> src n.
Proof.
  unfold src, all_syms. rewrite !Forall_forall. intros H. split.
  - intros v V. apply H, V.
  - intros k _ A. apply asks_symbol in A. apply H in A as [_ A]. discriminate A.
Qed.
Lemma fin_src_all l : Forall fin l -> Forall src l.
Proof. apply Forall_impl. exact fin_src. Qed.
Lemma src_list l st ew es w : src (Lst l st ew es w) -> Forall src l.
Proof.
  intros [S A]. apply every_list in S. rewrite Forall_forall in *. intros n I. split; [exact (S _ I)|].
  intros k J Q. exact (A k J (asks_inside k n l st ew es w I Q)).
Qed.
Lemma src_attr k v st w : src (Attr k v st w) -> src v.
Proof. intros [S A]. split; [exact S|]. intros j J Q. exact (A j J (asks_attribute j k v st w Q)). Qed.
Lemma src_ws w n : src n -> src (set_ws w n).
Proof.
  intros [S A]. split; [unfold all_syms; rewrite syms_ws; exact S|]. intros k J Q. apply (A k J).
  destruct n; cbn in Q; inversion Q; subst;
    first [eapply asks_here; eauto; fail | eapply asks_inside; eassumption | eapply asks_attribute; eassumption].
Qed.
Lemma src_sym a : src (Sym a) -> ok (a_val a).
Proof. intros [S _]. inversion S; assumption. Qed.

(** What may be called, and asked for. *)
Definition callable (name : bytes) : Prop := ~ K name /\ name <> b "symbol" /\
  (name = b "namespace" -> forall prefix k, K k -> ~ ~ K (prefix ++ k)).
Definition askable (name : bytes) (ps : list node) : Prop := name = b "ifdef" ->
  forall cond more x, ps = cond :: more -> atomic cond = Some x -> ~ K (a_val x).
Definition named_ok (name : bytes) : Prop := callable name /\ name <> b "ifdef".
Lemma named_askable name ps : named_ok name -> askable name ps.
Proof. intros [_ N] X. contradiction. Qed.
Lemma ok_named v : ok v -> named_ok v.
Proof.
  intros [A [_ B]]. split; [split; [exact A|split]|].
  - intros ->. apply B. left. reflexivity.
  - intros -> prefix k J N. apply B. right. right. right. split; [left; reflexivity|]. exists prefix, k. auto.
  - intros ->. apply B. right. right. left. reflexivity.
Qed.
Lemma atomic_ws w n : atomic (set_ws w n) = option_map (fun a => Atom (a_val a) (a_site a) w) (atomic n).
Proof. destruct n; reflexivity. Qed.
Lemma src_call name args n : is_call name args n -> src n ->
  callable name /\ askable name (received args) /\ Forall src (received args).
Proof.
  intros [a [st [ew [es [w [-> Q]]]]]] S. pose proof (src_list _ _ _ _ _ S) as L. inversion L as [|? ? SA SR]; subst.
  apply src_sym in SA. rewrite Q in SA. destruct SA as [_ [A B]]. split; [split; [|split]|split].
  - intros J. exact (A _ J eq_refl).
  - intros ->. apply B. right. left. reflexivity.
  - intros -> prefix k J N. apply B. right. right. right. split; [right; reflexivity|]. exists prefix, k. auto.
  - intros -> cond more x R X J. destruct S as [_ S]. apply (S _ J).
    destruct args as [|cond' args]; [discriminate R|]. cbn in R.
    destruct (has LF (leading_ws cond')); injection R as R1 R2.
    + subst cond'. eapply asks_here; [exact Q|exact X|reflexivity].
    + rewrite <- R1, atomic_ws in X. destruct (atomic cond') as [y|] eqn:Y; [|discriminate X]. injection X as <-.
      eapply asks_here; [exact Q|exact Y|reflexivity].
  - apply p_received; [exact src_ws|exact SR].
Qed.

(** ** Contexts *)

Definition gooddefs (d : scope) : Prop := forall k m, ~ K k -> get k d = Some m ->
  Forall src (m_params m) /\ Forall src (m_body m).
Definition pair (c c' : context) : Prop := same_context K c c' /\ gooddefs (k_defs c).
Definition sim (r r' : result) : Prop :=
  match r with
  | Ok (ns, c) => exists c', r' = Ok (ns, c') /\ Forall fin ns /\ pair c c'
  | OutOfFuel => False
  | _ => r' = r
  end.
Definition alike_items (vs : list node) (r r' : res (list (bytes * node) * context)) : Prop :=
  match r with
  | Ok (items, c) => exists c', r' = Ok (items, c') /\ map snd items = vs /\ pair c c'
  | OutOfFuel => False
  | _ => r' = r
  end.

Lemma good_put k m d : (~ K k -> Forall src (m_params m) /\ Forall src (m_body m)) -> gooddefs d -> gooddefs (put k m d).
Proof.
  intros P D j m' N G. destruct (beq j k) eqn:J.
  - apply beq_eq in J. subst. rewrite get_put_same in G. injection G as <-. auto.
  - apply beq_neq in J. rewrite get_put_other in G by exact J. exact (D _ _ N G).
Qed.
Lemma good_assign l : forall d, p_assigns src l -> gooddefs d -> gooddefs (assign l d).
Proof.
  induction l as [|[k v] l IH]; intros d A D; [exact D|]. inversion A; subst. cbn.
  apply IH; [assumption|]. apply good_put; [|exact D]. intros _. split; [constructor|assumption].
Qed.
Lemma same_put k m d d' : same_defs_but K d d' -> same_defs_but K (put k m d) (put k m d').
Proof.
  intros S j N. destruct (beq j k) eqn:J.
  - apply beq_eq in J. subst. rewrite !get_put_same. reflexivity.
  - apply beq_neq in J. rewrite !get_put_other by exact J. exact (S _ N).
Qed.
Lemma same_assign l : forall d d', same_defs_but K d d' -> same_defs_but K (assign l d) (assign l d').
Proof. induction l as [|[k v] l IH]; intros d d' S; [exact S|]. cbn. apply IH, same_put, S. Qed.

Lemma pair_put c c' k m : pair c c' -> (~ K k -> Forall src (m_params m) /\ Forall src (m_body m)) ->
  pair (declare k m c) (declare k m c').
Proof. intros [[A B C] G] H. split; [constructor; [apply same_put, A|exact B|exact C]|]. apply good_put; assumption. Qed.
Lemma pair_assign c c' l : pair c c' -> p_assigns src l ->
  pair (with_defs (assign l (k_defs c)) c) (with_defs (assign l (k_defs c')) c').
Proof. intros [[A B C] G] H. split; [constructor; [apply same_assign, A|exact B|exact C]|]. apply good_assign; assumption. Qed.
Lemma assigns_src l : assigns_syms okf l -> p_assigns src l.
Proof. apply Forall_impl. intros x. apply fin_src_all. Qed.
Lemma pair_get c c' k : pair c c' -> ~ K k -> get k (k_defs c) = get k (k_defs c').
Proof. intros [[A _ _] _] N. exact (A _ N). Qed.
Lemma pair_length c c' : pair c c' -> length (k_files c) = length (k_files c').
Proof. intros [[_ _ F] _]. destruct F. reflexivity. Qed.
Lemma pair_lambda E c c' st : pair c c' -> lambda_name E c st = lambda_name E c' st.
Proof.
  intros [[_ _ F] _]. unfold lambda_name. do 3 f_equal. f_equal.
  destruct F. destruct (s_src st); reflexivity.
Qed.
Lemma pair_reading c c' p t : pair c c' -> pair (reading p t c) (reading p t c').
Proof.
  intros [[A B F] G]. split; [constructor; [exact A|exact B|]|exact G]. cbn. destruct F. cbn. constructor.
Qed.
Lemma pair_saying c c' st l : pair c c' -> pair (saying st l c) (saying st l c').
Proof. intros [[A B F] G]. split; [constructor; [exact A| |exact F]|exact G]. cbn. rewrite B. reflexivity. Qed.
(** Back to the definitions of an earlier pair. *)
Lemma pair_back c c' c1 c1' : pair c c' -> pair c1 c1' -> pair (with_defs (k_defs c) c1) (with_defs (k_defs c') c1').
Proof. intros [[A _ _] G] [[_ B C] _]. split; [constructor; assumption|exact G]. Qed.
Lemma pair_imported prefix c c' c1 c1' d : pair c c' -> pair c1 c1' ->
  (forall prefix k, K k -> ~ ~ K (prefix ++ k)) -> imported prefix (k_defs c1) (k_defs c) d ->
  exists d', imported prefix (k_defs c1') (k_defs c') d' /\ pair (with_defs d c1) (with_defs d' c1').
Proof.
  intros [[A _ _] G] [[A1 B1 C1] G1] CL [I1 I2].
  pose proof (copy_imported prefix (scope_names (k_defs c1')) (k_defs c1') (k_defs c') (Permutation_refl _)) as [J1 J2].
  set (d' := copy_prefixed prefix (scope_names (k_defs c1')) (k_defs c1') (k_defs c')) in *. exists d'. split; [split; assumption|].
  assert (S : forall j, (exists k, j = prefix ++ k) \/ forall k, j <> prefix ++ k).
  { intros j. destruct (beq (firstn (length prefix) j) prefix) eqn:P.
    - left. apply beq_eq in P. exists (skipn (length prefix) j). rewrite <- P at 1. symmetry. apply firstn_skipn.
    - right. intros k ->. revert P. rewrite firstn_app, firstn_all, Nat.sub_diag, firstn_O, app_nil_r, beq_refl. discriminate. }
  assert (O : forall j, (forall k, j <> prefix ++ k) -> get j d = get j (k_defs c) /\ get j d' = get j (k_defs c')).
  { intros j N. split; [apply I2|apply J2]; intros k X; exfalso; exact (N _ X). }
  assert (L : forall f k inner outer, (forall k m, get k inner = Some m -> get (prefix ++ k) f = Some m) ->
    (forall k, (forall k', k = prefix ++ k' -> get k' inner = None) -> get k f = get k outer) ->
    get (prefix ++ k) f = match get k inner with Some m => Some m | None => get (prefix ++ k) outer end).
  { intros f k inner outer X Y. destruct (get k inner) as [m|] eqn:Q; [exact (X _ _ Q)|]. apply Y. intros k' Z.
    apply app_inv_head in Z. subst. exact Q. }
  split; [constructor; [|exact B1|exact C1]|]; cbn.
  - intros j N. destruct (S j) as [[k ->]|X].
    + rewrite (L d k _ _ I1 I2), (L d' k _ _ J1 J2). assert (NK : ~ K k) by (intros Z; exact (CL prefix _ Z N)).
      rewrite <- (A1 _ NK), <- (A _ N). reflexivity.
    + destruct (O _ X) as [-> ->]. exact (A _ N).
  - intros j m N Q. destruct (S j) as [[k ->]|X].
    + assert (NK : ~ K k) by (intros Z; exact (CL prefix _ Z N)). rewrite (L d k _ _ I1 I2) in Q.
      destruct (get k (k_defs c1)) as [m'|] eqn:Y; [injection Q as <-; exact (G1 _ _ NK Y)|exact (G _ _ N Q)].
    + rewrite (proj1 (O _ X)) in Q. exact (G _ _ N Q).
Qed.

(** ** Results *)

Lemma sim_ok ns c c' : Forall fin ns -> pair c c' -> sim (Ok (ns, c)) (Ok (ns, c')).
Proof. intros A B. exists c'. auto. Qed.
Lemma sim_inv ns c r' : sim (Ok (ns, c)) r' -> exists c', r' = Ok (ns, c') /\ Forall fin ns /\ pair c c'.
Proof. auto. Qed.
Lemma sim_fails q q' r : sim q q' -> fails q r -> q' = q /\ sim r r.
Proof. intros S F. destruct q as [[ns c]| | | |]; cbn in *; try contradiction; subst; split; reflexivity. Qed.
Lemma fails_sim {A} (q : res A) r : fails q r -> sim r r.
Proof. destruct q; cbn; intros F; try contradiction; subst; reflexivity. Qed.
Lemma sim_changed f r r' : (forall ns, Forall fin ns -> Forall fin (f ns)) -> sim r r' -> sim (changed f r) (changed f r').
Proof.
  intros F S. destruct r as [[ns c]| | | |]; cbn in S; try contradiction; subst; try reflexivity.
  destruct S as [c' [-> [A B]]]. apply sim_ok; auto.
Qed.
Lemma sim_within c c' r r' : pair c c' -> sim r r' -> sim (within c r) (within c' r').
Proof.
  intros P S. destruct r as [[ns c1]| | | |]; cbn in S; try contradiction; subst; try reflexivity.
  destruct S as [c1' [-> [A B]]]. apply sim_ok; [exact A|]. apply pair_back; assumption.
Qed.
Lemma sim_refused rs n vs (r : result) : refused rs n vs r -> sim r r.
Proof. intros [k [st [-> _]]]. reflexivity. Qed.

Section Rules.
Variable E : env.
Hypothesis TEXT : reads_text E.
Hypothesis FILES : unmentioned_in_files K E.
Hypothesis DATES : dates_are_dates E.
Hypothesis CHOICE : choosable K E.

Lemma okf_other v : ~ K v -> starts_with (b "%") v = false -> ~ In v (map b ["symbol"; "ifdef"; "namespace"]%string) -> okf v.
Proof.
  intros A B C. split; [|exact B]. split; [exact A|]. split.
  - intros k _ ->. discriminate B.
  - intros [->|[->|[->|[[->| ->] _]]]]; try discriminate B; apply C; cbn; tauto.
Qed.
Lemma true_okf : okf (b "true").
Proof. apply okf_other; [apply (not_word _ _ CHOICE)|reflexivity|]. cbn. intuition discriminate. Qed.
Lemma false_okf : okf (b "false").
Proof. apply okf_other; [apply (not_word _ _ CHOICE)|reflexivity|]. cbn. intuition discriminate. Qed.
Lemma lambda_okf c st : okf (lambda_name E c st).
Proof.
  apply okf_other; [apply (not_lambda _ _ CHOICE)|reflexivity|]. unfold lambda_name. cbn. intuition discriminate.
Qed.
Lemma dates_okf text t : e_toml E text = Some t -> Forall okf (toml_dates (TomlTable t)).
Proof.
  intros H. pose proof (DATES _ _ H) as D. pose proof (not_date _ _ CHOICE _ _ H) as N. rewrite Forall_forall in *.
  intros v I. specialize (D _ I). specialize (N _ I). destruct v as [|x v]; [contradiction|]. cbn [starts_with_digit] in D.
  change (nat_of_ascii "0") with 48 in D. change (nat_of_ascii "9") with 57 in D.
  apply okf_other; [exact N| |].
  - cbn [b list_ascii_of_string starts_with]. destruct (Ascii.eqb "%" x) eqn:X; [|reflexivity]. apply Ascii.eqb_eq in X. subst.
    exfalso. change (nat_of_ascii "%") with 37 in D. lia.
  - cbn. intros [X|[X|[X|[]]]]; injection X as <- _; vm_compute in D; lia.
Qed.

Lemma yaml_sim c c' text sep st q d : pair c c' -> YamlText E text sep st (k_defs c) (Ok (q, d)) ->
  (forall ns, q = Ok ns -> Forall fin ns) /\
  exists d', YamlText E text sep st (k_defs c') (Ok (q, d')) /\ pair (with_defs d c) (with_defs d' c').
Proof.
  intros P Y. destruct (yaml_shifts okf _ _ _ _ _ _ _ Y) as [A [l [-> [B C]]]]. split; [exact A|].
  exists (assign l (k_defs c')). split; [apply C|]. apply pair_assign; [exact P|apply assigns_src, B].
Qed.
Lemma yaml_sim_fails c' text sep st d q (r : result) : YamlText E text sep st d q -> fails q r ->
  YamlText E text sep st (k_defs c') q.
Proof. intros Y F. apply (yaml_shifts_panic okf _ _ _ _ _ _ Y). intros x ->. contradiction. Qed.
Lemma toml_sim c c' text sep st q d : pair c c' -> TomlText E text sep st (k_defs c) (q, d) ->
  (forall ns, q = Ok ns -> Forall fin ns) /\
  exists d', TomlText E text sep st (k_defs c') (q, d') /\ pair (with_defs d c) (with_defs d' c').
Proof.
  intros P Y. destruct (toml_shifts okf _ _ _ _ _ _ _ true_okf false_okf (dates_okf text) Y) as [A [l [-> [B C]]]]. split; [exact A|].
  exists (assign l (k_defs c')). split; [apply C|]. apply pair_assign; [exact P|apply assigns_src, B].
Qed.
Lemma with_defs_self c : with_defs (k_defs c) c = c.
Proof. destruct c. reflexivity. Qed.
Lemma front_sim n vs c c' a q : pair c c' -> front E n vs c a q ->
  match q with
  | Ok (x, d) => exists d', front E n vs c' a (Ok (x, d')) /\ pair (with_defs d c) (with_defs d' c')
  | _ => front E n vs c' a q
  end.
Proof.
  intros P H. destruct H.
  - exists (k_defs c'). split; [apply front_none; assumption|]. rewrite !with_defs_self. exact P.
  - destruct (yaml_sim _ _ _ _ _ _ _ P H0) as [_ [d' [A B]]]. exists d'. split; [eapply front_yaml; eassumption|exact B].
  - destruct q as [[x d]| |p| |]; cbn in H1; try contradiction; subst r; cbv beta iota;
      (eapply front_yaml_panic; [eassumption|apply (yaml_shifts_panic okf _ _ _ _ _ _ H0); discriminate|reflexivity]).
  - destruct (toml_sim _ _ _ _ _ _ _ P H0) as [_ [d' [A B]]]. exists d'. split; [eapply front_toml; eassumption|exact B].
Qed.
Lemma one_fine' n : symbols n = [] -> Forall fin [n].
Proof. intros H. constructor; [|constructor]. unfold all_syms. rewrite H. constructor. Qed.
Lemma html_sim n c c' a d d' r : pair (with_defs d c) (with_defs d' c') -> html E n c a d r ->
  exists r', html E n c' a d' r' /\ sim r r'.
Proof.
  intros P H. destruct H.
  - eexists. split; [apply html_ok; eassumption|]. apply sim_ok; [apply one_fine'; reflexivity|exact P].
  - eexists. split; [apply html_error; assumption|reflexivity].
Qed.
Lemma paths_fin st fs : Forall fin (path_nodes st fs).
Proof.
  destruct fs as [|f fs]; [constructor|]. constructor; [constructor|]. rewrite Forall_map. apply Forall_forall. intros. constructor.
Qed.

Ltac same := eexists; split; [econstructor; eassumption|first [reflexivity | eapply fails_sim; eassumption
  | apply sim_ok; [first [apply one_fine'; reflexivity | assumption]|assumption]]].

Lemma values_sim name meaning n vs c c' r :
  In (name, meaning) on_values -> name <> b "symbol" -> Forall fin vs -> pair c c' -> meaning E n vs c r ->
  exists r', meaning E n vs c' r' /\ sim r r'.
Proof.
  intros I NS V P. unfold on_values in I. cbn [In] in I.
  repeat match goal with H : _ \/ _ |- _ => destruct H as [H|H] end; try contradiction;
    injection I as <- <-; intros H.
  - destruct H. eexists. split; [constructor|]. apply sim_ok; assumption.
  - destruct H as [p path v m A PO T R|]; [|same]. eexists. split; [eapply gets_item; eassumption|]. apply sim_ok; [|exact P].
    constructor; [|constructor]. apply (every_reaches _ _ _ _ R).
    apply every_positionals in V. rewrite PO in V. inversion V as [|? ? _ V2]; subst. inversion V2; assumption.
  - destruct H; same.
  - destruct H; same.
  - destruct H. eexists. split; [econstructor; eassumption|]. apply sim_ok; [|exact P].
    rewrite Forall_map. apply Forall_forall. intros. constructor.
  - exfalso. apply NS. reflexivity.
  - destruct H.
    + eexists. split; [eapply embeds_file; eassumption|]. apply sim_ok; [apply one_fine'; reflexivity|exact P].
    + eexists. split; [eapply embeds_missing; eassumption|reflexivity].
    + eexists. split; [eapply embeds_other; eassumption|reflexivity].
    + eexists. split; [eapply embeds_count; eassumption|reflexivity].
  - destruct H as [a r D O H|a d D O F|a q d r D O F X|a q d r D O F H|a q r D O F X].
    + assert (P' : pair (with_defs (k_defs c) c) (with_defs (k_defs c') c')) by (rewrite !with_defs_self; exact P).
      destruct (html_sim _ _ _ _ _ _ _ P' H) as [r' [A B]]. exists r'. split; [eapply marks_content; eassumption|exact B].
    + destruct (front_sim _ _ _ _ _ _ P F) as [d' [A B]]. eexists. split; [eapply marks_front; eassumption|].
      apply sim_ok; [constructor|exact B].
    + destruct (front_sim _ _ _ _ _ _ P F) as [d' [A B]]. exists r. split; [eapply marks_no_front; eassumption|eapply fails_sim; eassumption].
    + destruct (front_sim _ _ _ _ _ _ P F) as [d' [A B]]. destruct (html_sim _ _ _ _ _ _ _ B H) as [r' [A' B']].
      exists r'. split; [eapply marks_both; eassumption|exact B'].
    + exists r. split; [|eapply fails_sim; eassumption]. pose proof (front_sim _ _ _ _ _ _ P F) as G.
      eapply marks_panic; try eassumption. destruct q as [[x d]| | | |]; cbn in X; try contradiction; exact G.
  - destruct H as [a ns d D Y|a q d r D Y X|a q r D Y X].
    + destruct (yaml_sim _ _ _ _ _ _ _ P Y) as [A [d' [B C]]]. eexists. split; [eapply reads_yaml_ok; eassumption|].
      apply sim_ok; [exact (A _ eq_refl)|exact C].
    + destruct (yaml_sim _ _ _ _ _ _ _ P Y) as [A [d' [B C]]]. exists r. split; [eapply reads_yaml_error; eassumption|eapply fails_sim; eassumption].
    + exists r. split; [|eapply fails_sim; eassumption]. eapply reads_yaml_panic; [eassumption| |eassumption]. eapply yaml_sim_fails; eassumption.
  - destruct H as [a ns d D Y|a q d r D Y X|a q r D Y X].
    + destruct (yaml_sim _ _ _ _ _ _ _ P Y) as [A [d' [B C]]]. eexists. split; [eapply reads_yaml_ok; eassumption|].
      apply sim_ok; [exact (A _ eq_refl)|exact C].
    + destruct (yaml_sim _ _ _ _ _ _ _ P Y) as [A [d' [B C]]]. exists r. split; [eapply reads_yaml_error; eassumption|eapply fails_sim; eassumption].
    + exists r. split; [|eapply fails_sim; eassumption]. eapply reads_yaml_panic; [eassumption| |eassumption]. eapply yaml_sim_fails; eassumption.
  - destruct H as [a ns d D Y|a q d r D Y X].
    + destruct (toml_sim _ _ _ _ _ _ _ P Y) as [A [d' [B C]]]. eexists. split; [eapply reads_toml_ok; eassumption|].
      apply sim_ok; [exact (A _ eq_refl)|exact C].
    + destruct (toml_sim _ _ _ _ _ _ _ P Y) as [A [d' [B C]]]. exists r. split; [eapply reads_toml_error; eassumption|eapply fails_sim; eassumption].
  - destruct H as [pat t k up r A H]. destruct H.
    + eexists. split; [econstructor; [eassumption|eapply lists_ok; eassumption]|]. apply sim_ok; [apply paths_fin|exact P].
    + eexists. split; [econstructor; [eassumption|eapply lists_pattern; eassumption]|reflexivity].
    + eexists. split; [econstructor; [eassumption|eapply lists_error; eassumption]|reflexivity].
    + eexists. split; [econstructor; [eassumption|eapply lists_panic; eassumption]|reflexivity].
  - destruct H as [ns st ew es w ns' -> R]. eexists. split; [eapply reverses_list; [reflexivity|eassumption]|].
    apply sim_ok; [|exact P]. inversion V; subst.
    constructor; [|constructor]. apply every_list. apply every_list in H1. exact (every_reversal _ _ _ R H1).
  - destruct H.
    + eexists. split; [eapply dates_ok; eassumption|]. apply sim_ok; [apply one_fine'; reflexivity|exact P].
    + exists r. split; [eapply dates_fails; eassumption|eapply fails_sim; eassumption].
    + exists r. split; [eapply dates_zone; eassumption|eapply fails_sim; eassumption].
  - destruct H.
    + eexists. split; [eapply stamps_ok; eassumption|]. apply sim_ok; [apply one_fine'; reflexivity|exact P].
    + exists r. split; [eapply stamps_fails; eassumption|eapply fails_sim; eassumption].
    + exists r. split; [eapply stamps_zone; eassumption|eapply fails_sim; eassumption].
  - destruct H. same.
  - destruct H. same.
  - destruct H. eexists. split; [constructor|]. apply sim_ok; [apply every_splat, V|exact P].
  - destruct H; [|same]. eexists. split; [econstructor; eassumption|]. apply sim_ok; [|exact P].
    constructor; [|constructor]. apply every_list, V.
  - destruct H. eexists. split; [constructor|]. apply sim_ok; [apply every_respaced, V|exact P].
  - destruct H; [|eexists; split; [eapply logs_other; assumption|reflexivity]].
    eexists. split; [eapply logs_texts; eassumption|]. apply sim_ok; [constructor|apply pair_saying, P].
  - destruct H.
    + eexists. split; [eapply formats_ok; eassumption|]. apply sim_ok; [apply one_fine'; reflexivity|exact P].
    + eexists. split; [eapply formats_fails; eassumption|reflexivity].
    + eexists. split; [eapply formats_value; eassumption|reflexivity].
    + eexists. split; [eapply formats_template; eassumption|reflexivity].
    + eexists. split; [eapply formats_other; eassumption|reflexivity].
    + eexists. split; [eapply formats_none; eassumption|reflexivity].
  - destruct H.
    + eexists. split; [eapply looks_up_ok; eassumption|]. apply sim_ok; [apply one_fine'; reflexivity|exact P].
    + eexists. split; [eapply looks_up_unset; eassumption|reflexivity].
    + eexists. split; [eapply looks_up_other; eassumption|reflexivity].
    + eexists. split; [eapply looks_up_count; eassumption|reflexivity].
Qed.

Lemma key_named vs : accepted rules_sort vs -> Forall fin vs -> named_ok (key_macro vs).
Proof.
  intros A V. apply accepted_sort in A as [v [_ O]]. unfold key_macro, chosen.
  destruct (keyword_value (b "key") vs) as [k|] eqn:KV.
  - pose proof (every_keyword _ _ _ _ V KV) as F. apply keyword_in in KV as [st [w I]].
    destruct (O _ _ _ _ I) as [[X _]|[_ [a ->]]]; [vm_compute in X; discriminate X|].
    cbn. inversion F as [|? ? G _]; subst. apply ok_named, G.
  - split; [split; [|split; discriminate]|discriminate]. intros J. apply (not_builtin _ _ CHOICE _ J).
    vm_compute. tauto.
Qed.
Lemma first_named f more vs : Forall fin vs -> positionals vs = Sym f :: more -> named_ok (a_val f).
Proof.
  intros A P. apply every_positionals in A. rewrite P in A. inversion A as [|? ? X _]; subst.
  inversion X as [|? ? G _]; subst. apply ok_named, G.
Qed.

Notation srcs := (Forall src).
Ltac err C := eexists; split; [eapply C; eassumption|reflexivity].
Ltac rest C := exists_fails C
with exists_fails C := match goal with S : sim ?q ?q', F : fails ?q ?r |- _ =>
  let Q := fresh in let R := fresh in destruct (sim_fails _ _ _ S F) as [Q R]; subst q'; exists r; split; [eapply C; eassumption|exact R] end.
Tactic Notation "step" constr(IH) constr(x) constr(P) "as" ident(c2) ident(A) ident(V) ident(P2) :=
  let r2 := fresh in let S := fresh in destruct (IH x _ P) as [r2 [A S]]; destruct S as [c2 [S [V P2]]]; subst r2.
Lemma src_cons n l : srcs (n :: l) -> src n /\ srcs l.
Proof. intros H. inversion H; auto. Qed.

Lemma means_sim :
  (forall n c r, means E n c r -> src n -> forall c', pair c c' -> exists r', means E n c' r' /\ sim r r') /\
  (forall ns c r, means_all E ns c r -> srcs ns -> forall c', pair c c' -> exists r', means_all E ns c' r' /\ sim r r') /\
  (forall name n ps c r, runs E name n ps c r -> callable name /\ askable name ps /\ srcs ps ->
     forall c', pair c c' -> exists r', runs E name n ps c' r' /\ sim r r') /\
  (forall v cs c r, clauses E v cs c r -> fin v /\ srcs cs -> forall c', pair c c' -> exists r', clauses E v cs c' r' /\ sim r r') /\
  (forall p body items c r, rounds E p body items c r -> src p /\ srcs body /\ Forall fin items ->
     forall c', pair c c' -> exists r', rounds E p body items c' r' /\ sim r r') /\
  (forall name n drop vs c r, each E name n drop vs c r -> named_ok name /\ Forall fin vs ->
     forall c', pair c c' -> exists r', each E name n drop vs c' r' /\ sim r r') /\
  (forall name n st vs c r, keys E name n st vs c r -> named_ok name /\ Forall fin vs ->
     forall c', pair c c' -> exists r', keys E name n st vs c' r' /\ alike_items vs r r').
Proof.
  pose proof (p_binds src src_list src_attr) as BINDS.
  apply (means_mutind E
    (fun n c r => src n -> forall c', pair c c' -> exists r', means E n c' r' /\ sim r r')
    (fun ns c r => srcs ns -> forall c', pair c c' -> exists r', means_all E ns c' r' /\ sim r r')
    (fun name n ps c r => callable name /\ askable name ps /\ srcs ps -> forall c', pair c c' -> exists r', runs E name n ps c' r' /\ sim r r')
    (fun v cs c r => fin v /\ srcs cs -> forall c', pair c c' -> exists r', clauses E v cs c' r' /\ sim r r')
    (fun p body items c r => src p /\ srcs body /\ Forall fin items -> forall c', pair c c' -> exists r', rounds E p body items c' r' /\ sim r r')
    (fun name n drop vs c r => named_ok name /\ Forall fin vs -> forall c', pair c c' -> exists r', each E name n drop vs c' r' /\ sim r r')
    (fun name n st vs c r => named_ok name /\ Forall fin vs -> forall c', pair c c' -> exists r', keys E name n st vs c' r' /\ alike_items vs r r')).
  - (* atoms *) intros n a c A S O c' P. eexists. split; [econstructor; eassumption|]. apply sim_ok; [|exact P].
    apply one_fine'. destruct n; try reflexivity; discriminate.
  - intros a c N O c' P. eexists. split; [constructor; assumption|]. apply sim_ok; [|exact P]. constructor; [|constructor].
    constructor; [|constructor]. split; [exact (src_sym _ O)|]. destruct (starts_with (b "%") (a_val a)) eqn:Q; [|reflexivity].
    apply starts_with_iff in Q as [t Q]. exfalso. exact (N _ Q).
  - intros a name body c q N G _ IH O c' P. assert (NK : ~ K name).
    { intros J. apply src_sym in O. destruct O as [_ [O _]]. exact (O _ J N). }
    destruct (IH (proj2 (proj2 P _ _ NK G)) _ P) as [r' [A S]]. rewrite (pair_get _ _ _ P NK) in G.
    eexists. split; [eapply means_variable; eassumption|]. apply sim_changed; [apply every_respaced|exact S].
  - intros a name c N G O c' P. assert (NK : ~ K name).
    { intros J. apply src_sym in O. destruct O as [_ [O _]]. exact (O _ J N). }
    rewrite (pair_get _ _ _ P NK) in G. err means_undefined.
  - intros n name args c r C _ IH O c' P. destruct (IH (src_call _ _ _ C O) _ P) as [r' [A S]].
    exists r'. split; [eapply means_call; eassumption|exact S].
  - intros ns st ew es w c q N _ IH O c' P. destruct (IH (src_list _ _ _ _ _ O) _ P) as [r' [A S]].
    eexists. split; [apply means_list; eassumption|]. apply sim_changed; [|exact S]. intros vs V. constructor; [|constructor]. apply every_list, V.
  - intros k v st w c x xs c1 _ IH O c' P. step IH (src_attr _ _ _ _ O) P as c2 A V P2.
    eexists. split; [eapply means_attr; eassumption|]. inversion V; subst. apply sim_ok; [|exact P2]. constructor; assumption.
  - intros k v st w c c1 _ IH O c' P. step IH (src_attr _ _ _ _ O) P as c2 A V P2. err means_attr_nothing.
  - intros k v st w c q r _ IH F O c' P. destruct (IH (src_attr _ _ _ _ O) _ P) as [r' [A S]]. rest means_attr_fails.
  - (* nodes *) intros c _ c' P. eexists. split; [constructor|]. apply sim_ok; [constructor|exact P].
  - intros n ns c xs c1 q _ IH1 _ IH2 O c' P. apply src_cons in O as [O1 O2]. step IH1 O1 P as c2 A V P2.
    destruct (IH2 O2 _ P2) as [r' [A' S']]. eexists. split; [eapply means_cons; eassumption|].
    apply sim_changed; [|exact S']. intros l L. apply Forall_app. auto.
  - intros n ns c q r _ IH F O c' P. apply src_cons in O as [O1 O2]. destruct (IH O1 _ P) as [r' [A S]]. rest means_stop.
  - (* calls *) intros name meaning n ps c vs c1 r I _ IH MN [N [KA O]] c' P. step IH O P as c2 A V P2.
    destruct (values_sim _ _ _ _ _ _ _ I (proj1 (proj2 N)) V P2 MN) as [r' [A' S']].
    exists r'. split; [eapply runs_values; eassumption|exact S'].
  - intros name n ps c q r EF _ IH F [N [KA O]] c' P. destruct (IH O _ P) as [r' [A S]]. rest runs_fails.
  - intros name rs n ps c vs c1 r I _ IH R [N [KA O]] c' P. step IH O P as c2 A V P2.
    exists r. split; [eapply runs_refused; eassumption|eapply sim_refused; eassumption].
  - intros name n ps c vs c1 m l q R _ IH G BL _ IH2 [N [KA O]] c' P. step IH O P as c2 A V P2.
    destruct (proj2 P2 _ _ (proj1 N) G) as [MP MB].
    assert (D : p_assigns src l) by exact (proj1 (proj2 BINDS) _ _ _ BL MP (fin_src_all _ V)).
    destruct (IH2 MB _ (pair_assign _ _ _ P2 D)) as [r' [A' S']]. rewrite (pair_get _ _ _ P2 (proj1 N)) in G.
    eexists. split; [eapply runs_body; eassumption|]. apply sim_within; assumption.
  - intros name n ps c vs c1 m k st R _ IH G MM [N [KA O]] c' P. step IH O P as c2 A V P2.
    rewrite (pair_get _ _ _ P2 (proj1 N)) in G. err runs_mismatch.
  - intros name n ps c vs c1 R _ IH G [N [KA O]] c' P. step IH O P as c2 A V P2.
    rewrite (pair_get _ _ _ P2 (proj1 N)) in G. err runs_unknown.
  - (* define *) intros n a body c vs c1 _ IH [N [KA O]] c' P. apply src_cons in O as [O1 O2]. step IH O2 P as c2 A V P2.
    eexists. split; [eapply define_variable; eassumption|]. apply sim_ok; [constructor|]. apply pair_put; [exact P2|].
    intros _. split; [constructor|apply fin_src_all, V].
  - intros n a body c q r _ IH F [N [KA O]] c' P. apply src_cons in O as [O1 O2]. destruct (IH O2 _ P) as [r' [A S]]. rest define_fails.
  - intros n a params st ew es w body c R [N [KA O]] c' P. apply src_cons in O as [O1 O2]. apply src_list, src_cons in O1 as [_ O1].
    eexists. split; [eapply define_macro; eassumption|]. apply sim_ok; [constructor|]. apply pair_put; [exact P|]. auto.
  - intros n a params st ew es w body c p X _ c' P. err define_excess.
  - intros n head body c bad X _ c' P. err define_head.
  - intros n c _ c' P. eexists. split; [apply define_nothing|reflexivity].
  - (* lambda *) intros n ps c head more params PO L R [N [KA O]] c' P. rewrite (pair_lambda E _ _ (node_site n) P).
    eexists. split; [eapply lambda_made; eassumption|]. apply sim_ok.
    + constructor; [|constructor]. constructor; [apply lambda_okf|constructor].
    + apply pair_put; [exact P|]. intros _. split; [|apply p_drop, O]. apply p_positionals in O. rewrite PO in O.
      apply src_cons in O as [O _]. destruct L as [params st ew es w|a]; [exact (src_list _ _ _ _ _ O)|]. constructor; [exact O|constructor].
  - intros n ps c head more params p PO L X _ c' P. err lambda_excess.
  - intros n ps c head more PO S L _ c' P. err lambda_head.
  - intros n ps c r R _ c' P. exists r. split; [eapply lambda_refused; eassumption|eapply sim_refused; eassumption].
  - (* match *) intros n e cs c v c1 r _ IH _ IH2 [N [KA O]] c' P. apply src_cons in O as [O1 O2]. step IH O1 P as c2 A V P2.
    inversion V as [|? ? V1 _]; subst. destruct (IH2 (conj V1 O2) _ P2) as [r' [A' S']]. exists r'. split; [eapply match_value; eassumption|exact S'].
  - intros n e cs c q r _ IH F [N [KA O]] c' P. apply src_cons in O as [O1 O2]. destruct (IH O1 _ P) as [r' [A S]]. rest match_fails.
  - intros n e cs c vs c1 _ IH L [N [KA O]] c' P. apply src_cons in O as [O1 O2]. step IH O1 P as c2 A V P2. err match_values.
  - intros n c _ c' P. eexists. split; [apply match_nothing|reflexivity].
  - (* ifdef *) intros n cond a yes no c q L A G _ IH [N [KA O]] c' P. apply src_cons in O as [_ O]. apply src_cons in O as [O _].
    destruct (IH O _ P) as [r' [A' S']]. rewrite (pair_get _ _ _ P (KA eq_refl _ _ _ eq_refl A)) in G.
    eexists. split; [eapply ifdef_yes; eassumption|]. apply sim_changed; [apply every_respaced|exact S'].
  - intros n cond a yes no c q A G _ IH [N [KA O]] c' P. apply src_cons in O as [_ O]. apply src_cons in O as [_ O]. apply src_cons in O as [O _].
    destruct (IH O _ P) as [r' [A' S']]. rewrite (pair_get _ _ _ P (KA eq_refl _ _ _ eq_refl A)) in G.
    eexists. split; [eapply ifdef_no; eassumption|]. apply sim_changed; [apply every_respaced|exact S'].
  - intros n cond a yes c A G [N [KA O]] c' P. rewrite (pair_get _ _ _ P (KA eq_refl _ _ _ eq_refl A)) in G.
    eexists. split; [eapply ifdef_not; eassumption|]. apply sim_ok; [constructor|exact P].
  - intros n cond yes no c L A _ c' P. err ifdef_name.
  - intros n ps c L L' _ c' P. err ifdef_count.
  - (* include *) intros n ps c v a c1 path text tree q _ IH A F S _ IH2 [N [KA O]] c' P. step IH O P as c2 A1 V P2.
    assert (OT : srcs tree).
    { destruct F as [before [after [_ [_ R]]]]. pose proof S as S'. apply syntax_iff in S'; [|exact (TEXT _ _ R)].
      pose proof (FILES _ _ _ _ R S') as U. revert U. apply Forall_impl. intros t. apply unmentioned_iff. }
    destruct (IH2 OT _ (pair_reading _ _ path text P2)) as [r' [A' S']]. rewrite (pair_length _ _ P2) in S.
    eexists. split; [eapply include_file; eassumption|]. apply sim_changed; [apply every_respaced|exact S'].
  - intros n ps c v a c1 path text e _ IH A F S [N [KA O]] c' P. step IH O P as c2 A1 V P2. rewrite (pair_length _ _ P2) in S. err include_syntax.
  - intros n ps c v a c1 path text q r _ IH A F S NE X [N [KA O]] c' P. step IH O P as c2 A1 V P2. rewrite (pair_length _ _ P2) in S.
    exists r. split; [eapply include_stops; eassumption|eapply fails_sim; eassumption].
  - intros n ps c v a c1 _ IH A F [N [KA O]] c' P. step IH O P as c2 A1 V P2. err include_missing.
  - intros n ps c v c1 _ IH A [N [KA O]] c' P. step IH O P as c2 A1 V P2. err include_other.
  - intros n ps c vs c1 _ IH A [N [KA O]] c' P. step IH O P as c2 A1 V P2. err include_count.
  - (* namespace *) intros n ps c name a rest c1 d _ IH A OP I [N [KA O]] c' P. step IH O P as c2 A1 V P2.
    destruct (pair_imported _ _ _ _ _ _ P P2 (proj2 (proj2 N) eq_refl) I) as [d' [I' P']].
    eexists. split; [eapply namespace_ok; eassumption|]. apply sim_ok; [|exact P']. inversion V; subst. apply every_after. assumption.
  - intros n ps c name a rest c1 st _ IH A OP [N [KA O]] c' P. step IH O P as c2 A1 V P2. err namespace_option.
  - intros n ps c vs c1 _ IH A [N [KA O]] c' P. step IH O P as c2 A1 V P2. err namespace_name.
  - (* for *) intros n ps c p i items st ew es w more vs c1 q PO I _ IH _ IH2 [N [KA O]] c' P. pose proof (p_drop _ _ 3 O) as D.
    apply p_positionals in O. rewrite PO in O. apply src_cons in O as [O1 O2]. apply src_cons in O2 as [_ O3]. apply src_cons in O3 as [O4 _].
    step IH (src_list _ _ _ _ _ O4) P as c2 A V P2.
    destruct (IH2 (conj O1 (conj D V)) _ P2) as [r' [A' S']]. eexists. split; [eapply for_loop; eassumption|]. apply sim_within; assumption.
  - intros n ps c p i items st ew es w more q r PO I _ IH F [N [KA O]] c' P.
    apply p_positionals in O. rewrite PO in O. apply src_cons in O as [O1 O2]. apply src_cons in O2 as [_ O3]. apply src_cons in O3 as [O4 _].
    destruct (IH (src_list _ _ _ _ _ O4) _ P) as [r' [A S]]. rest for_fails.
  - intros n ps c r R _ c' P. exists r. split; [eapply for_refused; eassumption|eapply sim_refused; eassumption].
  - (* map *) intros n ps c vs c1 f more r _ IH PO _ IH2 [N [KA O]] c' P. step IH O P as c2 A V P2.
    destruct (IH2 (conj (first_named _ _ _ V PO) (every_drop _ _ 1 V)) _ P2) as [r' [A' S']].
    exists r'. split; [eapply map_all; eassumption|exact S'].
  - intros n ps c vs c1 f more r _ IH PO _ IH2 [N [KA O]] c' P. step IH O P as c2 A V P2.
    destruct (IH2 (conj (first_named _ _ _ V PO) (every_drop _ _ 1 V)) _ P2) as [r' [A' S']].
    exists r'. split; [eapply filter_all; eassumption|exact S'].
  - intros n ps c vs c1 f more r _ IH PO _ IH2 [N [KA O]] c' P. step IH O P as c2 A V P2.
    pose proof (first_named _ _ _ V PO) as NO.
    destruct (IH2 (conj (proj1 NO) (conj (named_askable _ _ NO) (fin_src_all _ (every_drop _ _ 1 V)))) _ P2) as [r' [A' S']].
    exists r'. split; [eapply apply_all; eassumption|exact S'].
  - (* sort *) intros n ps c vs c1 nodes st ew es w items c2 sorted ns _ IH A PO _ IH2 S AR [N [KA O]] c' P.
    step IH O P as c3 A1 V P2. pose proof (key_named _ A V) as NO.
    apply every_positionals in V. rewrite PO in V. inversion V as [|? ? X _]; subst. apply every_list in X.
    destruct (IH2 (conj NO X) _ P2) as [r' [A' [c4 [-> [MS P4]]]]].
    eexists. split; [eapply sort_list; eassumption|]. apply sim_ok; [|exact P4].
    constructor; [|constructor]. apply every_list. apply (every_arranged _ _ _ _ AR).
    apply (every_perm _ nodes); [|exact X]. rewrite <- MS. apply Permutation_map. exact (sorts_perm _ _ _ _ S).
  - intros n ps c vs c1 nodes st ew es w items c2 q r _ IH A PO _ IH2 S F [N [KA O]] c' P.
    step IH O P as c3 A1 V P2. pose proof (key_named _ A V) as NO.
    apply every_positionals in V. rewrite PO in V. inversion V as [|? ? X _]; subst. apply every_list in X.
    destruct (IH2 (conj NO X) _ P2) as [r' [A' [c4 [-> [MS P4]]]]].
    exists r. split; [eapply sort_disorder; eassumption|eapply fails_sim; eassumption].
  - intros n ps c vs c1 nodes st ew es w q r _ IH A PO _ IH2 F [N [KA O]] c' P.
    step IH O P as c3 A1 V P2. pose proof (key_named _ A V) as NO.
    apply every_positionals in V. rewrite PO in V. inversion V as [|? ? X _]; subst. apply every_list in X.
    destruct (IH2 (conj NO X) _ P2) as [r' [A' S']]. 
    assert (QQ : r' = q) by (destruct q as [[? ?]| | | |]; cbn in *; try contradiction; assumption). subst r'.
    exists r. split; [eapply sort_fails; eassumption|eapply fails_sim; eassumption].
  - intros n ps c vs c1 v _ IH A PO L [N [KA O]] c' P. step IH O P as c3 A1 V P2. err sort_other.
  - (* clauses *) intros v c _ c' P. eexists. split; [constructor|]. apply sim_ok; [constructor|exact P].
  - intros v pat body st ew es w cs c p c1 r _ IH NB _ IH2 [V O] c' P. apply src_cons in O as [O1 O2]. apply src_list, src_cons in O1 as [O1 O3].
    step IH O1 P as c2 A V1 P2. destruct (IH2 (conj V O2) _ P2) as [r' [A' S']]. exists r'. split; [eapply clauses_skip; eassumption|exact S'].
  - intros v pat body st ew es w cs c p c1 l q _ IH BL _ IH2 [V O] c' P. apply src_cons in O as [O1 O2]. apply src_list, src_cons in O1 as [O1 O3].
    step IH O1 P as c2 A V1 P2. inversion V1 as [|? ? V2 _]; subst.
    assert (D : p_assigns src l) by exact (proj1 BINDS _ _ _ BL (fin_src _ V2) (fin_src _ V)).
    destruct (IH2 O3 _ (pair_assign _ _ _ P2 D)) as [r' [A' S']].
    eexists. split; [eapply clauses_take; eassumption|]. apply sim_within; assumption.
  - intros v pat body st ew es w cs c q r _ IH F [V O] c' P. apply src_cons in O as [O1 O2]. apply src_list, src_cons in O1 as [O1 O3].
    destruct (IH O1 _ P) as [r' [A S]]. rest clauses_fails.
  - intros v pat body st ew es w cs c ps c1 _ IH L [V O] c' P. apply src_cons in O as [O1 O2]. apply src_list, src_cons in O1 as [O1 O3].
    step IH O1 P as c2 A V1 P2. err clauses_patterns.
  - intros v clause cs c L _ c' P. err clauses_bad.
  - (* rounds *) intros p body c _ c' P. eexists. split; [constructor|]. apply sim_ok; [constructor|exact P].
  - intros p body i items c l xs c1 q BL _ IH _ IH2 [PO [BO IO]] c' P. inversion IO; subst.
    assert (D : p_assigns src l) by exact (proj1 BINDS _ _ _ BL PO (fin_src _ H1)).
    step IH BO (pair_assign _ _ _ P D) as c2 A V P2. destruct (IH2 (conj PO (conj BO H2)) _ P2) as [r' [A' S']].
    eexists. split; [eapply rounds_round; eassumption|]. apply sim_changed; [intros ns L; apply Forall_app; auto|exact S'].
  - intros p body i items c l q r BL _ IH F [PO [BO IO]] c' P. inversion IO; subst.
    assert (D : p_assigns src l) by exact (proj1 BINDS _ _ _ BL PO (fin_src _ H1)).
    destruct (IH BO _ (pair_assign _ _ _ P D)) as [r' [A S]]. rest rounds_fails.
  - intros p body i items c k st MM _ c' P. err rounds_mismatch.
  - (* each *) intros name n drop c _ c' P. eexists. split; [constructor|]. apply sim_ok; [constructor|exact P].
  - intros name n drop v vs c xs c1 q _ IH _ IH2 [N O] c' P. inversion O; subst.
    assert (O1 : callable name /\ askable name [v] /\ srcs [v]).
    { split; [apply N|]. split; [apply named_askable, N|]. constructor; [apply fin_src; assumption|constructor]. }
    step IH O1 P as c2 A V P2. destruct (IH2 (conj N H2) _ P2) as [r' [A' S']]. eexists. split; [eapply each_next; eassumption|].
    apply sim_changed; [|exact S']. intros ns L. apply Forall_app. split; [|exact L]. destruct (drop xs); [constructor|exact V].
  - intros name n drop v vs c q r _ IH F [N O] c' P. inversion O; subst.
    assert (O1 : callable name /\ askable name [v] /\ srcs [v]).
    { split; [apply N|]. split; [apply named_askable, N|]. constructor; [apply fin_src; assumption|constructor]. }
    destruct (IH O1 _ P) as [r' [A S]]. rest each_fails.
  - (* keys *) intros name n st c _ c' P. eexists. split; [constructor|]. exists c'. auto.
  - intros name n st v vs c k a c1 items c2 _ IH A _ IH2 [N O] c' P. inversion O; subst.
    assert (O1 : callable name /\ askable name [v] /\ srcs [v]).
    { split; [apply N|]. split; [apply named_askable, N|]. constructor; [apply fin_src; assumption|constructor]. }
    step IH O1 P as c3 A1 V P2. destruct (IH2 (conj N H2) _ P2) as [r' [A' [c4 [-> [MS P4]]]]].
    eexists. split; [eapply keys_next; eassumption|]. exists c4. cbn. rewrite MS. auto.
  - intros name n st v vs c k a c1 q r _ IH A _ IH2 F [N O] c' P. inversion O; subst.
    assert (O1 : callable name /\ askable name [v] /\ srcs [v]).
    { split; [apply N|]. split; [apply named_askable, N|]. constructor; [apply fin_src; assumption|constructor]. }
    step IH O1 P as c3 A1 V P2. destruct (IH2 (conj N H2) _ P2) as [r' [A' S']].
    assert (QQ : r' = q) by (destruct q as [[? ?]| | | |]; cbn in *; try contradiction; assumption). subst r'.
    exists r. split; [eapply keys_later; eassumption|]. destruct q; cbn in F; try contradiction; subst; reflexivity.
  - intros name n st v vs c k c1 _ IH A [N O] c' P. inversion O; subst.
    assert (O1 : callable name /\ askable name [v] /\ srcs [v]).
    { split; [apply N|]. split; [apply named_askable, N|]. constructor; [apply fin_src; assumption|constructor]. }
    step IH O1 P as c3 A1 V P2. err keys_other.
  - intros name n st v vs c ks c1 _ IH L [N O] c' P. inversion O; subst.
    assert (O1 : callable name /\ askable name [v] /\ srcs [v]).
    { split; [apply N|]. split; [apply named_askable, N|]. constructor; [apply fin_src; assumption|constructor]. }
    step IH O1 P as c3 A1 V P2. err keys_count.
  - intros name n st v vs c e _ IH [N O] c' P. inversion O; subst.
    assert (O1 : callable name /\ askable name [v] /\ srcs [v]).
    { split; [apply N|]. split; [apply named_askable, N|]. constructor; [apply fin_src; assumption|constructor]. }
    destruct (IH O1 _ P) as [r' [A S]]. cbn in S. subst r'. err keys_error.
  - intros name n st v vs c q r _ IH NE F [N O] c' P. inversion O; subst.
    assert (O1 : callable name /\ askable name [v] /\ srcs [v]).
    { split; [apply N|]. split; [apply named_askable, N|]. constructor; [apply fin_src; assumption|constructor]. }
    destruct (IH O1 _ P) as [r' [A S]]. destruct (sim_fails _ _ (match r with Ok _ => OutOfFuel | Err e => Err e | Panic p => Panic p | Hang => Hang | OutOfFuel => OutOfFuel end) S) as [-> _].
    { destruct q as [[? ?]| | | |]; cbn in *; try contradiction; subst; reflexivity. }
    exists r. split; [eapply keys_stops; eassumption|]. destruct q as [[? ?]| | | |]; cbn in F; try contradiction; subst; reflexivity.
Qed.

(** ** Programs *)

Lemma same_files_sym l l' : same_files l l' -> same_files l' l.
Proof. intros []. constructor. Qed.
Lemma pair_sym c c' : pair c c' -> pair c' c.
Proof.
  intros [[A B C] G]. split; [constructor; [intros k N; symmetry; exact (A _ N)|symmetry; exact B|apply same_files_sym, C]|].
  intros k m N Q. apply (G k m N). rewrite (A _ N). exact Q.
Qed.
Lemma sim_same r r' : sim r r' -> same_result K r r'.
Proof.
  destruct r as [[ns c]| | | |]; cbn; try contradiction; try (intros ->; constructor).
  intros [c' [-> [_ [S _]]]]. constructor. exact S.
Qed.
Lemma same_result_sym r r' : same_result K r r' -> same_result K r' r.
Proof.
  intros [ns c c' [A B C]|e|p|]; constructor. constructor; [intros k N; symmetry; exact (A _ N)|symmetry; exact B|apply same_files_sym, C].
Qed.

Lemma atom_means v a c : atomic v = Some a -> symbol v = None -> means_all E [v] c (Ok ([v], c)).
Proof.
  intros A S. apply (means_cons E v [] c [v] c (Ok ([], c))); [|constructor]. econstructor; eassumption.
Qed.
Lemma define_outcome (name : bytes) n ps c r : name = b "define" -> runs E name n ps c r ->
  (forall a params st ew es w body, ps = Lst (Sym a :: params) st ew es w :: body -> single_rests params ->
     r = Ok ([], declare (a_val a) (Macro params body) c)) /\
  (forall a v, ps = [Sym a; v] -> forall x, atomic v = Some x -> symbol v = None ->
     r = Ok ([], declare (a_val a) (variable [v]) c)).
Proof.
  intros Q H.
  assert (AT : forall v x q, means_all E [v] c q -> atomic v = Some x -> symbol v = None -> q = Ok ([v], c)).
  { intros v x q M A S. assert (V : forall r, means E v c r -> r = Ok ([v], c)).
    { intros r0 R. destruct v; cbn in *; try discriminate; inversion R; subst; try reflexivity; try discriminate;
        match goal with H : is_call _ _ _ |- _ => destruct H as [? [? [? [? [? [H _]]]]]]; discriminate H end. }
    inversion M as [|? ? ? ? ? ? R1 R2|? ? ? ? ? R1 F]; subst.
    - apply V in R1. injection R1 as -> ->. inversion R2; subst. reflexivity.
    - apply V in R1. subst. contradiction. }
  destruct H; try discriminate Q.
  - exfalso. subst. revert H. unfold on_values. cbn [In]. intros H.
    repeat (destruct H as [H|H]; [apply (f_equal fst) in H; vm_compute in H; discriminate H|]). exact H.
  - exfalso. subst. destruct H as [H|[H|H]].
    + apply H. vm_compute. tauto.
    + vm_compute in H. repeat (destruct H as [H|H]; [discriminate H|]). exact H.
    + vm_compute in H. repeat (destruct H as [H|H]; [discriminate H|]). exact H.
  - exfalso. subst. revert H. unfold eager_rules. cbn [In]. intros H.
    repeat (destruct H as [H|H]; [apply (f_equal fst) in H; vm_compute in H; discriminate H|]). exact H.
  - exfalso. subst. apply H. vm_compute. tauto.
  - exfalso. subst. apply H. vm_compute. tauto.
  - exfalso. subst. apply H. vm_compute. tauto.
  - split; [discriminate|]. intros a0 v X x A S. injection X as -> ->.
    apply (AT _ _ _ H A) in S. injection S as -> ->. reflexivity.
  - split; [discriminate|]. intros a0 v X x A S. injection X as -> ->.
    apply (AT _ _ _ H A) in S. subst. contradiction.
  - split; [|discriminate]. intros a0 params0 st0 ew0 es0 w0 body0 X _. injection X. intros; subst. reflexivity.
  - split; [|discriminate]. intros a0 params0 st0 ew0 es0 w0 body0 X [S1 S2]. injection X. intros; subst. exfalso.
    destruct H as [before [after [-> H]]]. unfold rest_names, kwrest_names in *. rewrite flat_map_app, app_length in S1, S2. cbn [flat_map] in S1, S2.
    destruct H as [[H L]|[_ [H L]]]; [destruct (rest_name p)|destruct (kwrest_name p)]; try contradiction; cbn in *; lia.
  - split.
    + intros a0 params0 st0 ew0 es0 w0 body0 X _. injection X. intros; subst. exfalso. inversion H; subst; cbn in *; congruence.
    + intros a0 v X. injection X. intros; subst. exfalso. inversion H; subst; cbn in *; congruence.
  - split; [intros ? ? ? ? ? ? ? X; discriminate X|intros ? ? X; discriminate X].
Qed.

Lemma defines_always D : defines K D -> exists k m, K k /\ forall c,
  means E D c (Ok ([], declare k m c)) /\ forall r, means E D c r -> r = Ok ([], declare k m c).
Proof.
  assert (U : forall c l st ew es w r d args, l = Sym d :: args -> a_val d = b "%define" -> means E (Lst l st ew es w) c r ->
    runs E (b "define") (Lst l st ew es w) (received args) c r).
  { intros c l st ew es w r d args -> A H. inversion H as [? ? ? X|?|?|?|? name args' ? ? C R|? ? ? ? ? ? ? N|?|?|?]; subst.
    - discriminate X.
    - destruct C as [a [st' [ew' [es' [w' [C Q]]]]]]. injection C. intros. subst. rewrite A in Q. vm_compute in Q. injection Q as <-. exact R.
    - exfalso. apply (N (b "define") args). exists d, st, ew, es, w. auto. }
  intros [d name params st ew es w body st' ew' es' w' A J S|d name v a st' ew' es' w' A J V S].
  - exists (a_val name), (Macro params body). split; [exact J|]. intros c.
    assert (R : exists w2, received (Lst (Sym name :: params) st ew es w :: body) = Lst (Sym name :: params) st ew es w2 :: body).
    { cbn [received leading_ws set_ws]. destruct (has LF w); eexists; reflexivity. }
    destruct R as [w2 R]. split.
    + eapply means_call; [exists d, st', ew', es', w'; split; [reflexivity|exact A]|]. rewrite R. apply define_macro, S.
    + intros r H. eapply U in H; [|reflexivity|exact A]. rewrite R in H.
      exact (proj1 (define_outcome _ _ _ _ _ eq_refl H) _ _ _ _ _ _ _ eq_refl S).
  - exists (a_val name), (variable [v]). split; [exact J|]. intros c.
    assert (R : exists x, received [Sym name; v] = [Sym x; v] /\ a_val x = a_val name).
    { cbn [received leading_ws set_ws]. destruct (has LF (a_ws name)); eexists; split; reflexivity. }
    destruct R as [x [R X]]. rewrite <- X. split.
    + eapply means_call; [exists d, st', ew', es', w'; split; [reflexivity|exact A]|]. rewrite R. apply define_variable.
      eapply atom_means; eassumption.
    + intros r H. eapply U in H; [|reflexivity|exact A]. rewrite R in H.
      exact (proj2 (define_outcome _ _ _ _ _ eq_refl H) _ _ eq_refl _ V S).
Qed.
Lemma defines_once D c : defines K D -> exists k m, K k /\
  means E D c (Ok ([], declare k m c)) /\ forall r, means E D c r -> r = Ok ([], declare k m c).
Proof. intros H. destruct (defines_always _ H) as [k [m [J X]]]. exists k, m. split; [exact J|apply X]. Qed.

Lemma pair_declared c c' k m : K k -> pair c c' -> pair (declare k m c) c'.
Proof.
  intros J [[A B C] G]. split; [constructor; [|exact B|exact C]|].
  - intros j N. cbn. rewrite get_put_other; [exact (A _ N)|]. intros ->. contradiction.
  - apply good_put; [|exact G]. intros N. contradiction.
Qed.
Lemma with_definition D post : defines K D -> srcs post -> forall pre c c' r, srcs pre -> pair c c' ->
  means_all E (pre ++ D :: post) c r -> exists r', means_all E (pre ++ post) c' r' /\ sim r r'.
Proof.
  intros DE PO. induction pre as [|n pre IH]; intros c c' r PR P H; cbn in *.
  - destruct (defines_once _ c DE) as [k [m [J [_ U]]]].
    inversion H as [|? ? ? xs c1 q R1 R2|? ? ? q ? R1 F]; subst.
    + apply U in R1. injection R1 as -> ->. destruct (proj1 (proj2 means_sim) _ _ _ R2 PO _ (pair_declared _ _ k m J P)) as [r' [A S]].
      exists r'. split; [exact A|]. apply (sim_changed (app [])) with (r' := r') in S; [|auto].
      replace r' with (changed (app []) r'); [exact S|]. destruct r' as [[? ?]| | | |]; reflexivity.
    + apply U in R1. subst. contradiction.
  - apply src_cons in PR as [O1 O2]. inversion H as [|? ? ? xs c1 q R1 R2|? ? ? q ? R1 F]; subst.
    + destruct (proj1 means_sim _ _ _ R1 O1 _ P) as [r1 [A [c2 [-> [V P2]]]]].
      destruct (IH _ _ _ O2 P2 R2) as [r' [A' S']]. eexists. split; [eapply means_cons; eassumption|].
      apply sim_changed; [intros l L; apply Forall_app; auto|exact S'].
    + destruct (proj1 means_sim _ _ _ R1 O1 _ P) as [r1 [A S]]. rest means_stop.
Qed.
Lemma without_definition D post : defines K D -> srcs post -> forall pre c c' r, srcs pre -> pair c c' ->
  means_all E (pre ++ post) c r -> exists r', means_all E (pre ++ D :: post) c' r' /\ sim r r'.
Proof.
  intros DE PO. induction pre as [|n pre IH]; intros c c' r PR P H; cbn in *.
  - destruct (defines_once _ c' DE) as [k [m [J [U _]]]].
    assert (P' : pair c (declare k m c')) by (apply pair_sym, pair_declared; [exact J|apply pair_sym, P]).
    destruct (proj1 (proj2 means_sim) _ _ _ H PO _ P') as [r' [A S]]. exists (changed (app []) r'). split; [eapply means_cons; eassumption|].
    replace (changed (app []) r') with r'; [exact S|]. destruct r' as [[? ?]| | | |]; reflexivity.
  - apply src_cons in PR as [O1 O2]. inversion H as [|? ? ? xs c1 q R1 R2|? ? ? q ? R1 F]; subst.
    + destruct (proj1 means_sim _ _ _ R1 O1 _ P) as [r1 [A [c2 [-> [V P2]]]]].
      destruct (IH _ _ _ O2 P2 R2) as [r' [A' S']]. eexists. split; [eapply means_cons; eassumption|].
      apply sim_changed; [intros l L; apply Forall_app; auto|exact S'].
    + destruct (proj1 means_sim _ _ _ R1 O1 _ P) as [r1 [A S]]. rest means_stop.
Qed.

Lemma nodes_alike ns c c' r : Forall (unmentioned K) ns -> same_context K c c' ->
  (forall k m, ~ K k -> get k (k_defs c) = Some m -> Forall (unmentioned K) (m_params m) /\ Forall (unmentioned K) (m_body m)) ->
  means_all E ns c r -> exists r', means_all E ns c' r' /\ same_result K r r'.
Proof.
  assert (I : forall l, Forall (unmentioned K) l -> srcs l) by (intros l; apply Forall_impl; intros n; apply unmentioned_iff).
  intros U S G H. assert (P : pair c c').
  { split; [exact S|]. intros k m N Q. destruct (G k m N Q). auto. }
  destruct (proj1 (proj2 means_sim) _ _ _ H (I _ U) _ P) as [r' [A B]]. exists r'. split; [exact A|apply sim_same, B].
Qed.

Lemma programs_alike path text text' pre D post : utf8 text -> utf8 text' ->
  parse (e_unescape E) 0 text = Ok (pre ++ D :: post) -> parse (e_unescape E) 0 text' = Ok (pre ++ post) ->
  defines K D -> Forall (unmentioned K) (pre ++ post) ->
  (forall r, program_means E path text r -> exists r', program_means E path text' r' /\ same_result K r r') /\
  (forall r, program_means E path text' r -> exists r', program_means E path text r' /\ same_result K r' r).
Proof.
  intros U U' P P' D0 M. assert (S : srcs pre /\ srcs post).
  { apply Forall_app. revert M. apply Forall_impl. intros n. apply unmentioned_iff. }
  destruct S as [PR PO].
  assert (G : forall t t', pair (Context no_defs [] [(path, t)]) (Context no_defs [] [(path, t')])).
  { intros t t'. split; [constructor; cbn; [intros k _; reflexivity|reflexivity|constructor]|].
    intros k m _ X. cbn in X. rewrite get_no_defs in X. discriminate. }
  assert (X : forall t tree, utf8 t -> parse (e_unescape E) 0 t = Ok tree ->
    forall r, program_means E path t r -> means_all E tree (Context no_defs [] [(path, t)]) r).
  { intros t tree V Q r H. destruct H as [tree' r S H|q r S F].
    - apply syntax_iff in S; [|exact V]. rewrite Q in S. injection S as <-. exact H.
    - apply syntax_iff in S; [|exact V]. rewrite Q in S. subst. contradiction. }
  split; intros r H.
  - apply (X _ _ U P) in H. destruct (with_definition D post D0 PO _ _ _ _ PR (G text text') H) as [r' [A S]].
    exists r'. split; [|apply sim_same, S]. eapply program_tree; [|exact A]. apply syntax_iff; assumption.
  - apply (X _ _ U' P') in H. destruct (without_definition D post D0 PO _ _ _ _ PR (G text' text) H) as [r' [A S]].
    exists r'. split; [|apply same_result_sym, sim_same, S]. eapply program_tree; [|exact A]. apply syntax_iff; assumption.
Qed.
End Rules.
End Dead.
