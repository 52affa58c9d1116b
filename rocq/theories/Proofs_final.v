(** * Proof of C72: nothing is left to expand *)

From Coq Require Import String List Ascii Bool Arith NArith ZArith Permutation Lia.
From Verif Require Import Text Utf8 Res Ast Env Scope State Numbers Data Sorting Paths Parser
  Spec_args Spec_expand Spec_builtin Spec_bind Spec_control Spec_sort Spec_data Spec_world Spec_errors Spec_scope Spec_place
  Spec_events Spec_final Spec_keep Proofs_text Proofs_args Proofs_simple Proofs_builtin Proofs_sort Proofs_bind Proofs_data Proofs_keep Proofs_events Proofs_place.
From Verif Require Import Args Expander Spec_lang.
Import ListNotations.

(** ** Conditions on all symbols of nodes *)

Section Syms.
Variable Q : bytes -> Prop.
Definition all_syms (n : node) : Prop := Forall Q (symbols n).
Notation every := (Forall all_syms).

Lemma syms_ws w n : symbols (set_ws w n) = symbols n.
Proof. destruct n; reflexivity. Qed.
Lemma every_ws w l : every (map (set_ws w) l) <-> every l.
Proof. rewrite Forall_map. unfold all_syms. split; apply Forall_impl; intros n; rewrite syms_ws; auto. Qed.
Lemma every_respaced w l : every l -> every (respaced w l).
Proof.
  destruct l as [|n l]; [auto|]. intros H. inversion H; subst. constructor; [|assumption].
  unfold all_syms. rewrite syms_ws. assumption.
Qed.
Lemma every_received l : every l -> every (received l).
Proof.
  destruct l as [|n l]; [auto|]. intros H. inversion H; subst. cbn.
  destruct (has LF (leading_ws n)); constructor; try assumption. unfold all_syms. rewrite syms_ws. assumption.
Qed.
Lemma every_in l l' : incl l' l -> every l -> every l'.
Proof. rewrite !Forall_forall. auto. Qed.
Lemma every_perm l l' : Permutation l' l -> every l -> every l'.
Proof. intros P. apply every_in. intros x. apply Permutation_in, P. Qed.
Lemma every_list l st ew es w : all_syms (Lst l st ew es w) <-> every l.
Proof. unfold all_syms. cbn. rewrite Forall_flat_map. reflexivity. Qed.
Lemma every_positionals l : every l -> every (positionals l).
Proof. apply every_in. intros x I. apply in_positionals in I. apply I. Qed.
Lemma every_drop l : forall k, every l -> every (drop_positionals k l).
Proof.
  induction l as [|p l IH]; intros [|k] H; cbn; try assumption. inversion H; subst.
  destruct p; try (apply IH; assumption). constructor; [assumption|]. apply IH. assumption.
Qed.
Lemma every_keyword k l v : every l -> keyword_value k l = Some v -> all_syms v.
Proof.
  intros H K. apply keyword_in in K as [st [w I]]. rewrite Forall_forall in H. exact (H _ I).
Qed.
Lemma every_after l : every l -> every (after_keywords l).
Proof. induction l as [|n l IH]; [auto|]. intros H. inversion H; subst. destruct n; auto. Qed.
Lemma every_reversal l l' : reversal l l' -> every l -> every l'.
Proof.
  intros [R _] H. apply (every_ws []). rewrite R. apply Forall_rev. apply every_ws, H.
Qed.
Lemma every_arranged xs ws ns : arranged xs ws ns -> every xs -> every ns.
Proof. intros [R _] H. apply (every_ws []). rewrite R. apply every_ws, H. Qed.
Lemma every_first item l v : first_value item l v -> every l -> all_syms v.
Proof.
  induction 1 as [v st w l|n l v N F IH]; intros H; inversion H; subst; auto.
Qed.
Lemma every_step item n m : step item n m -> all_syms n -> all_syms m.
Proof.
  intros [view st ew es w i m' I N|view st ew es w m' I F] H; apply every_list in H.
  - apply nth_error_In in N. rewrite Forall_forall in H. auto.
  - exact (every_first _ _ _ F H).
Qed.
Lemma every_reaches path n m : reaches path n m -> all_syms n -> all_syms m.
Proof. induction 1 as [n|item path n m k S R IH]; [auto|]. intros H. exact (IH (every_step _ _ _ S H)). Qed.
Lemma every_app l l' : every (l ++ l') <-> every l /\ every l'.
Proof. apply Forall_app. Qed.
Lemma every_splat l : every l ->
  every (flat_map (fun v => match v with Lst ns _ _ _ w => respaced w ns | _ => [v] end) l).
Proof.
  intros H. rewrite Forall_flat_map. revert H. apply Forall_impl. intros n H. destruct n; try (constructor; [exact H|constructor]).
  apply every_respaced. apply every_list in H. exact H.
Qed.
Lemma every_final_attrs l : every l -> every (final_attrs l).
Proof.
  induction l as [|n l IH]; [auto|]. intros H. inversion H; subst. cbn. destruct n; auto.
  destruct (is_some (keyword_value _ l)); auto.
Qed.

(** Assignments *)
Definition assigns_syms : assignments -> Prop := Forall (fun x => every (snd x)).
Lemma one_rest_syms names ns l : one_rest names ns l -> every ns -> assigns_syms l.
Proof. intros [|name ns'] H; constructor; [exact H|constructor]. Qed.
Lemma keyword_syms pats vals : every pats -> every vals ->
  assigns_syms (map (keyword_binding vals) (final_attrs pats)).
Proof.
  intros HP HV. apply every_final_attrs in HP. unfold assigns_syms. rewrite Forall_map. revert HP. apply Forall_impl.
  intros n H. destruct n; cbn; try constructor. 2: constructor.
  destruct (keyword_value keyword vals) as [v|] eqn:K; [exact (every_keyword _ _ _ HV K)|exact H].
Qed.
Lemma firstn_every k : forall l, every l -> every (firstn k l).
Proof. induction k; intros [|x l] H; cbn; try constructor; inversion H; subst; auto. Qed.
Lemma skipn_every k : forall l, every l -> every (skipn k l).
Proof. induction k; intros [|x l] H; cbn; auto. inversion H; subst; auto. Qed.
Lemma every_filter f l : every l -> every (filter f l).
Proof. apply every_in. intros x I. apply filter_In in I. apply I. Qed.

Lemma binds_syms :
  (forall p v l, binds p v l -> all_syms p -> all_syms v -> assigns_syms l) /\
  (forall ps vs l, binds_list ps vs l -> every ps -> every vs -> assigns_syms l) /\
  (forall ps vs l, binds_each ps vs l -> every ps -> every vs -> assigns_syms l).
Proof.
  apply (binds_mutind
    (fun p v l _ => all_syms p -> all_syms v -> assigns_syms l)
    (fun ps vs l _ => every ps -> every vs -> assigns_syms l)
    (fun ps vs l _ => every ps -> every vs -> assigns_syms l)); intros; try (constructor; fail).
  - constructor; [|constructor]. cbn. constructor; [assumption|constructor].
  - auto.
  - apply H; eapply every_list; eassumption.
  - unfold assigns_syms. rewrite !Forall_app. split; [|split; [|split]].
    + apply H; [apply every_filter; assumption|apply firstn_every, every_positionals; assumption].
    + eapply one_rest_syms; [eassumption|]. apply skipn_every, every_positionals. assumption.
    + eapply Permutation_Forall; [symmetry; eassumption|]. apply keyword_syms; assumption.
    + eapply one_rest_syms; [eassumption|]. eapply every_perm; [eassumption|].
      apply every_filter, every_final_attrs. assumption.
  - inversion H1; inversion H2; subst. apply Forall_app. split; [apply H|apply H0]; assumption.
Qed.

(** Definitions *)
Definition defs_syms (d : scope) : Prop := forall k m, get k d = Some m -> every (m_params m) /\ every (m_body m).
Lemma defs_put k m d : every (m_params m) -> every (m_body m) -> defs_syms d -> defs_syms (put k m d).
Proof.
  intros P B D j m' G. destruct (beq j k) eqn:J.
  - apply beq_eq in J. subst. rewrite get_put_same in G. injection G as <-. auto.
  - apply beq_neq in J. rewrite get_put_other in G by exact J. exact (D _ _ G).
Qed.
Lemma defs_variable k v d : every v -> defs_syms d -> defs_syms (put k (variable v) d).
Proof. intros V. apply defs_put; [constructor|exact V]. Qed.
Lemma defs_assign l : forall d, assigns_syms l -> defs_syms d -> defs_syms (assign l d).
Proof.
  induction l as [|[k v] l IH]; intros d A D; [exact D|]. inversion A; subst. cbn.
  apply IH; [assumption|]. apply defs_variable; assumption.
Qed.
Lemma defs_imported prefix inner outer final :
  imported prefix inner outer final -> defs_syms inner -> defs_syms outer -> defs_syms final.
Proof.
  intros [A B] I O k m G.
  destruct (beq (firstn (length prefix) k) prefix) eqn:P.
  - apply beq_eq in P. assert (K : k = prefix ++ skipn (length prefix) k).
    { rewrite <- P at 1. symmetry. apply firstn_skipn. }
    destruct (get (skipn (length prefix) k) inner) as [m'|] eqn:G'.
    + apply A in G' as G2. rewrite <- K in G2. rewrite G in G2. injection G2 as <-. exact (I _ _ G').
    + rewrite (B k) in G; [exact (O _ _ G)|]. intros k' Q'. rewrite K in Q'. apply app_inv_head in Q'. rewrite <- Q'. exact G'.
  - rewrite (B k) in G; [exact (O _ _ G)|]. intros k' ->. exfalso. revert P.
    rewrite firstn_app, firstn_all, Nat.sub_diag, firstn_O, app_nil_r, beq_refl. discriminate.
Qed.

(** ** Imported data *)
Fixpoint words (x : data) : list bytes :=
  match x with
  | Leaf LWord v => [v]
  | Leaf _ _ => []
  | Table l => flat_map (fun '(_, x) => words x) l
  | Array l => flat_map words l
  end.
Lemma data_node_words st x : forall w, symbols (data_node st w x) = words x.
Proof.
  induction x as [k v|l IH|l IH] using data_ind'; intros w.
  - destruct k; reflexivity.
  - cbn [data_node symbols words]. destruct l as [|[k x] l]; [reflexivity|]. inversion IH; subst. cbn in *. rewrite H1. f_equal.
    clear -H2. induction H2 as [|[k x] l H A IH]; [reflexivity|]. cbn in *. rewrite H, IH. reflexivity.
  - cbn [data_node symbols words]. destruct l as [|x l]; [reflexivity|]. inversion IH; subst. cbn in *. rewrite H1. f_equal.
    clear -H2. induction H2 as [|x l H A IH]; [reflexivity|]. cbn in *. rewrite H, IH. reflexivity.
Qed.
Lemma below_syms k l : Forall (fun y => all_syms (snd y)) l -> Forall (fun y : list bytes * node => all_syms (snd y)) (below k l).
Proof. intros H. unfold below. rewrite Forall_map. revert H. apply Forall_impl. intros [p v] H. exact H. Qed.
Lemma values_syms st x : Forall Q (words x) -> Forall (fun y => all_syms (snd y)) (values_in st x).
Proof.
  induction x as [k v|l IH|l IH] using data_ind'; cbn [values_in words]; intros H; [constructor| |].
  - apply Forall_flat_map. apply Forall_flat_map in H. induction l as [|[k x] l IHl]; [constructor|].
    inversion IH; inversion H; subst. constructor; [|auto]. apply Forall_app. split; [apply below_syms; auto|].
    constructor; [|constructor]. cbn. unfold all_syms. rewrite data_node_words. assumption.
  - apply Forall_flat_map in H. generalize 0. induction l as [|x l IHl]; intros i; [constructor|].
    inversion IH; inversion H; subst. apply Forall_app. split; [|auto]. apply Forall_app. split; [apply below_syms; auto|].
    constructor; [|constructor]. cbn. unfold all_syms. rewrite data_node_words. assumption.
Qed.
Lemma toml_words v : Q (b "true") -> Q (b "false") -> Forall Q (toml_dates v) -> Forall Q (words (toml_data v)).
Proof.
  intros QT QF. induction v as [s|z|s|s|x|l IH|l IH] using toml_ind'; cbn; intros H; try constructor; auto.
  - inversion H; subst; assumption.
  - destruct x; assumption.
  - rewrite Forall_flat_map in *. rewrite Forall_map. rewrite Forall_forall in *. auto.
  - rewrite Forall_flat_map in *. rewrite Forall_map. rewrite Forall_forall in *. intros [k v] I.
    exact (IH _ I (H _ I)).
Qed.
Lemma toml_nodes_syms E text sep st d ns d' :
  Q (b "true") -> Q (b "false") -> (forall t, e_toml E text = Some t -> Forall Q (toml_dates (TomlTable t))) ->
  TomlText E text sep st d (Ok ns, d') -> every ns.
Proof.
  intros QT QF W H. inversion H; subst. pose proof (toml_words _ QT QF (W _ H1)) as K.
  constructor; [|constructor]. change (Forall Q (symbols (data_node st [] (toml_data (TomlTable t))))). rewrite data_node_words. exact K.
Qed.
Lemma toml_defs_syms E text sep st d q d' :
  Q (b "true") -> Q (b "false") -> (forall t, e_toml E text = Some t -> Forall Q (toml_dates (TomlTable t))) ->
  TomlText E text sep st d (q, d') -> defs_syms d -> defs_syms d'.
Proof.
  intros QT QF W H D. inversion H; subst; [|exact D].
  pose proof (toml_words _ QT QF (W _ H1)) as K. apply defs_assign; [|exact D]. unfold assigns_syms. rewrite Forall_map.
  pose proof (values_syms st _ K) as V. revert V. apply Forall_impl. intros [p v] V. cbn. constructor; [exact V|constructor].
Qed.
End Syms.

Section Yaml.
Variables Q R : bytes -> Prop.
Hypothesis QR : forall v, Q v -> R v.
Notation syms := (all_syms Q).
Notation every := (Forall syms).
Notation dsyms := (defs_syms R).
Variable sep : bytes.
Variable st : site.
Definition spot_syms (s : spot) : Prop := every (p_done s) /\ dsyms (p_defs s).
Definition ends_syms (r : res spot) : Prop := forall s, r = Ok s -> spot_syms s.

Lemma labelled_syms p name done v : (forall w, syms (v w)) -> syms (labelled st p name done v).
Proof. intros H. unfold labelled. destruct p as [[]|]; apply H. Qed.
Lemma recorded_syms names name v d : syms v -> dsyms d -> dsyms (recorded sep names name v d).
Proof. intros V. apply defs_variable. constructor; [|constructor]. unfold all_syms in *. revert V. apply Forall_impl. exact QR. Qed.
Lemma list_all_syms w l : every l -> syms (list_of_all st w l).
Proof. intros H. apply every_list, H. Qed.
Lemma snoc_every l x : every l -> syms x -> every (l ++ [x]).
Proof. intros H X. apply Forall_app. split; [exact H|]. constructor; [exact X|constructor]. Qed.

Lemma entry_syms :
  (forall p s x r, Entry sep st p s x r -> spot_syms s -> ends_syms r) /\
  (forall p s l r, Entries sep st p s l r -> spot_syms s -> ends_syms r).
Proof.
  apply (entry_mutind sep st
    (fun p s x r => spot_syms s -> ends_syms r) (fun p s x r => spot_syms s -> ends_syms r)).
  - intros p s H s' X. injection X as <-. exact H.
  - intros s v K [A B] s' X. injection X as <-. split; assumption.
  - intros p s v name N [A B] s' X. injection X as <-. split; cbn.
    + apply snoc_every; [exact A|]. apply labelled_syms. intros w. constructor.
    + apply recorded_syms; [constructor|exact B].
  - intros s v [A B] s' X. injection X as <-. split; cbn; [|exact B]. apply snoc_every; [exact A|constructor].
  - intros p s k l last s1 names name _ IH N [A B] s' X. injection X as <-.
    destruct (IH (conj (List.Forall_nil _) B) _ eq_refl) as [A1 B1]. split; cbn.
    + apply snoc_every; [exact A|]. apply labelled_syms. intros w. apply list_all_syms, A1.
    + apply recorded_syms; [apply list_all_syms, A1|exact B1].
  - intros p s k l last s1 _ IH N M [A B] s' X. injection X as <-.
    destruct (IH (conj (List.Forall_nil _) B) _ eq_refl) as [A1 B1]. split; cbn; [|exact B1].
    apply snoc_every; [exact A|apply list_all_syms, A1].
  - intros s k l last s1 _ IH N H s' X. discriminate.
  - intros p s k l last q _ IH H s' X. discriminate.
  - intros p s H s' X. injection X as <-. exact H.
  - intros p s x l s1 r _ IH1 _ IH2 H. apply IH2. exact (IH1 H _ eq_refl).
  - intros p s x l q _ IH H s' X. discriminate.
Qed.

Lemma stream_syms p s es r : Stream sep st p s es r -> spot_syms s -> ends_syms r.
Proof.
  induction 1 as [p s l s1 N|p s l s1 k es r N S IH|s l s1 s2 k es r N X S IH|p s l es q N]; intros H.
  - exact (proj2 entry_syms _ _ _ _ N H).
  - apply IH. destruct (proj2 entry_syms _ _ _ _ N H _ eq_refl) as [A B]. split; [constructor|exact B].
  - apply IH. destruct (proj2 entry_syms _ _ _ _ N H _ eq_refl) as [A B].
    destruct X as [names name M|M]; (split; cbn; [constructor; [apply list_all_syms, A|constructor]|]).
    + apply recorded_syms; [apply list_all_syms, A|exact B].
    + exact B.
  - intros s' X. discriminate.
Qed.
Lemma yaml_syms E text d q d' : YamlText E text sep st d (Ok (q, d')) -> dsyms d ->
  dsyms d' /\ forall ns, q = Ok ns -> every ns.
Proof.
  intros H D. inversion H; subst.
  - destruct (stream_syms _ _ _ _ H3 (conj (List.Forall_nil _) D) _ eq_refl) as [A B].
    split; [exact B|]. intros ns X. injection X as <-. exact A.
  - destruct (stream_syms _ _ _ _ H3 (conj (List.Forall_nil _) D) _ eq_refl) as [A B].
    split; [exact B|]. discriminate.
Qed.
End Yaml.

(** ** The rules *)

Definition ok_sym (v : bytes) : Prop := v <> b "symbol" /\ v <> b "%symbol".
Definition fine_sym (v : bytes) : Prop := v <> b "symbol" /\ starts_with (b "%") v = false.
Lemma fine_ok v : fine_sym v -> ok_sym v.
Proof. intros [A B]. split; [exact A|]. intros ->. discriminate B. Qed.
Lemma unused_iff n : symbol_unused n <-> all_syms ok_sym n.
Proof.
  unfold symbol_unused, all_syms. rewrite Forall_forall. split.
  - intros [A B] v I. split; intros ->; contradiction.
  - intros H. split; intros I; apply H in I; destruct I; congruence.
Qed.
Lemma fine_free n : all_syms fine_sym n -> macro_free n.
Proof. apply Forall_impl. intros v H. apply H. Qed.
Lemma fine_ok_node n : all_syms fine_sym n -> all_syms ok_sym n.
Proof. apply Forall_impl. exact fine_ok. Qed.
Lemma fine_ok_all l : Forall (all_syms fine_sym) l -> Forall (all_syms ok_sym) l.
Proof. apply Forall_impl. exact fine_ok_node. Qed.
Lemma digit_fine v : starts_with_digit v -> fine_sym v.
Proof.
  destruct v as [|c v]; [contradiction|]. cbn [starts_with_digit]. intros [A B].
  change (nat_of_ascii "0") with 48 in A. change (nat_of_ascii "9") with 57 in B.
  assert (N : nat_of_ascii c <> 115) by lia. assert (M : nat_of_ascii c <> 37) by lia.
  split.
  - intros X. vm_compute in X. injection X as -> _. apply N. reflexivity.
  - destruct (starts_with (b "%") (c :: v)) eqn:Q; [|reflexivity]. apply starts_with_iff in Q as [t Q].
    vm_compute in Q. injection Q as -> _. exfalso. apply M. reflexivity.
Qed.

Notation fine := (Forall (all_syms fine_sym)).
Notation okay := (Forall (all_syms ok_sym)).
Definition okay_in (c : context) : Prop := defs_syms ok_sym (k_defs c).
Definition finely (r : result) : Prop := forall ns c, r = Ok (ns, c) -> fine ns /\ okay_in c.

Lemma finely_changed f q : (forall ns, fine ns -> fine (f ns)) -> finely q -> finely (changed f q).
Proof.
  intros F H ns c X. destruct q as [[ns' c']| | | |]; try discriminate. injection X as <- <-.
  destruct (H _ _ eq_refl) as [A B]. split; [apply F, A|exact B].
Qed.
Lemma finely_within c q : okay_in c -> finely q -> finely (within c q).
Proof.
  intros C H ns c' X. destruct q as [[ns' c2]| | | |]; try discriminate. injection X as <- <-.
  destruct (H _ _ eq_refl) as [A B]. split; [exact A|exact C].
Qed.
Lemma finely_fails {A} (q : res A) r : fails q r -> finely r.
Proof. intros F ns c ->. destruct q; cbn in F; try contradiction; discriminate. Qed.
Lemma finely_err e : finely (Err e).
Proof. intros ns c X. discriminate. Qed.
Lemma finely_panic e : finely (Panic e).
Proof. intros ns c X. discriminate. Qed.
Lemma finely_ok ns c : fine ns -> okay_in c -> finely (Ok (ns, c)).
Proof. intros A B ns' c' X. injection X as <- <-. auto. Qed.
Lemma refused_not_ok rs n vs (r : result) : refused rs n vs r -> finely r.
Proof. intros [k [st [-> _]]]. apply finely_err. Qed.

Section Rules.
Variable E : env.
Hypothesis TEXT : reads_text E.
Hypothesis FILES : symbol_unused_in_files E.
Hypothesis DATES : dates_are_dates E.

Lemma dates_fine text t : e_toml E text = Some t -> Forall fine_sym (toml_dates (TomlTable t)).
Proof. intros H. apply DATES in H. revert H. apply Forall_impl. exact digit_fine. Qed.
Lemma dates_ok_sym text t : e_toml E text = Some t -> Forall ok_sym (toml_dates (TomlTable t)).
Proof. intros H. apply dates_fine in H. revert H. apply Forall_impl. exact fine_ok. Qed.
Lemma true_fine : fine_sym (b "true"). Proof. split; [discriminate|reflexivity]. Qed.
Lemma false_fine : fine_sym (b "false"). Proof. split; [discriminate|reflexivity]. Qed.

Lemma front_okay n vs c a q d : okay_in c -> front E n vs c a (Ok (q, d)) -> defs_syms ok_sym d.
Proof.
  intros C H. inversion H; subst.
  - exact C.
  - eapply yaml_syms with (Q := fine_sym) (R := ok_sym); [exact fine_ok|eassumption|exact C].
  - destruct q0 as [x| | | |]; cbn in *; try contradiction; discriminate.
  - eapply toml_defs_syms; [apply fine_ok, true_fine|apply fine_ok, false_fine|apply dates_ok_sym|eassumption|exact C].
Qed.
Lemma html_okay n c a d r : defs_syms ok_sym d -> html E n c a d r -> finely r.
Proof.
  intros D [text H|H]; [|apply finely_err]. apply finely_ok; [|exact D]. constructor; [constructor|constructor].
Qed.

Lemma path_nodes_fine st fs : fine (path_nodes st fs).
Proof.
  destruct fs as [|f fs]; [constructor|]. constructor; [constructor|]. rewrite Forall_map. apply Forall_forall. intros. constructor.
Qed.
Lemma one_fine n : symbols n = [] -> fine [n].
Proof. intros H. constructor; [|constructor]. unfold all_syms. rewrite H. constructor. Qed.

Lemma values_fine name meaning n vs c r :
  In (name, meaning) on_values -> name <> b "symbol" -> fine vs -> okay_in c -> meaning E n vs c r -> finely r.
Proof.
  intros I NS V C. unfold on_values in I. cbn [In] in I.
  repeat match goal with H : _ \/ _ |- _ => destruct H as [H|H] end; try contradiction;
    injection I as <- <-; intros H.
  - destruct H. apply finely_ok; assumption.
  - destruct H as [p path v m A P T R|]; [|apply finely_err]. apply finely_ok; [|exact C].
    constructor; [|constructor]. apply (every_reaches _ _ _ _ R).
    apply every_positionals in V. rewrite P in V. inversion V as [|? ? _ V2]; subst. inversion V2; assumption.
  - destruct H; [|apply finely_err]. apply finely_ok; [apply one_fine; reflexivity|exact C].
  - destruct H; [|apply finely_err]. apply finely_ok; [apply one_fine; reflexivity|exact C].
  - destruct H. apply finely_ok; [|exact C]. rewrite Forall_map. apply Forall_forall. intros. constructor.
  - exfalso. apply NS. reflexivity.
  - destruct H; try apply finely_err. apply finely_ok; [apply one_fine; reflexivity|exact C].
  - destruct H as [a r D O H|a d D O F|a q d r D O F X|a q d r D O F H|a q r D O F X].
    + exact (html_okay _ _ _ _ _ C H).
    + apply finely_ok; [constructor|]. exact (front_okay _ _ _ _ _ _ C F).
    + exact (finely_fails _ _ X).
    + exact (html_okay _ _ _ _ _ (front_okay _ _ _ _ _ _ C F) H).
    + exact (finely_fails _ _ X).
  - destruct H as [a ns d D Y|a q d r D Y X|a q r D Y X]; try exact (finely_fails _ _ X).
    destruct (yaml_syms fine_sym ok_sym fine_ok _ _ _ _ _ _ _ Y C) as [A B]. apply finely_ok; [exact (B _ eq_refl)|exact A].
  - destruct H as [a ns d D Y|a q d r D Y X|a q r D Y X]; try exact (finely_fails _ _ X).
    destruct (yaml_syms fine_sym ok_sym fine_ok _ _ _ _ _ _ _ Y C) as [A B]. apply finely_ok; [exact (B _ eq_refl)|exact A].
  - destruct H as [a ns d D Y|a q d r D Y X]; try exact (finely_fails _ _ X).
    apply finely_ok.
    + exact (toml_nodes_syms _ _ _ _ _ _ _ _ true_fine false_fine (dates_fine _) Y).
    + exact (toml_defs_syms _ _ _ _ _ _ _ _ (fine_ok _ true_fine) (fine_ok _ false_fine) (dates_ok_sym _) Y C).
  - destruct H as [pat t k up r A H]. destruct H; try apply finely_err; try apply finely_panic.
    apply finely_ok; [apply path_nodes_fine|exact C].
  - destruct H as [ns st ew es w ns' -> R]. apply finely_ok; [|exact C]. inversion V; subst.
    constructor; [|constructor]. apply every_list. apply every_list in H1. exact (every_reversal _ _ _ R H1).
  - destruct H; try (eapply finely_fails; eassumption). apply finely_ok; [apply one_fine; reflexivity|exact C].
  - destruct H; try (eapply finely_fails; eassumption). apply finely_ok; [apply one_fine; reflexivity|exact C].
  - destruct H. apply finely_ok; [apply one_fine; reflexivity|exact C].
  - destruct H. apply finely_ok; [apply one_fine; reflexivity|exact C].
  - destruct H. apply finely_ok; [apply every_splat, V|exact C].
  - destruct H; [|apply finely_panic]. apply finely_ok; [|exact C]. constructor; [|constructor]. apply every_list, V.
  - destruct H. apply finely_ok; [apply every_respaced, V|exact C].
  - destruct H; [|apply finely_err]. apply finely_ok; [constructor|exact C].
  - destruct H; try apply finely_err. apply finely_ok; [apply one_fine; reflexivity|exact C].
  - destruct H; try apply finely_err. apply finely_ok; [apply one_fine; reflexivity|exact C].
Qed.

Lemma key_macro_ok vs : accepted rules_sort vs -> fine vs -> key_macro vs <> b "symbol".
Proof.
  intros A V. apply accepted_sort in A as [v [_ O]]. unfold key_macro, chosen.
  destruct (keyword_value (b "key") vs) as [k|] eqn:K; [|discriminate].
  pose proof (every_keyword _ _ _ _ V K) as F. apply keyword_in in K as [st [w I]].
  destruct (O _ _ _ _ I) as [[X _]|[_ [a ->]]]; [vm_compute in X; discriminate X|].
  cbn. inversion F as [|? ? [G _] _]; subst. exact G.
Qed.

Lemma name_ok name args n : is_call name args n -> all_syms ok_sym n -> name <> b "symbol" /\ okay args.
Proof.
  intros [a [st [ew [es [w [-> Q]]]]]] H. apply every_list in H. inversion H as [|? ? S R]; subst. split; [|exact R].
  inversion S as [|? ? [_ G] _]; subst. intros ->. apply G. rewrite Q. reflexivity.
Qed.

Lemma sorts_perm {A} cmp (l l' : list A) : sorts E cmp l (Ok l') -> Permutation l' l.
Proof. intros H. inversion H; subst; [apply H2|]. eapply picked_perm. eassumption. Qed.

Lemma means_fine :
  (forall n c r, means E n c r -> all_syms ok_sym n -> okay_in c -> finely r) /\
  (forall ns c r, means_all E ns c r -> okay ns -> okay_in c -> finely r) /\
  (forall name n ps c r, runs E name n ps c r -> name <> b "symbol" -> okay ps -> okay_in c -> finely r) /\
  (forall v cs c r, clauses E v cs c r -> all_syms fine_sym v -> okay cs -> okay_in c -> finely r) /\
  (forall p body items c r, rounds E p body items c r ->
     all_syms ok_sym p -> okay body -> fine items -> okay_in c -> finely r) /\
  (forall name n drop vs c r, each E name n drop vs c r -> name <> b "symbol" -> okay vs -> okay_in c -> finely r) /\
  (forall name n st vs c r, keys E name n st vs c r -> name <> b "symbol" -> okay vs -> okay_in c ->
     forall items c', r = Ok (items, c') -> map snd items = vs /\ okay_in c').
Proof.
  apply (means_mutind E
    (fun n c r => all_syms ok_sym n -> okay_in c -> finely r)
    (fun ns c r => okay ns -> okay_in c -> finely r)
    (fun name n ps c r => name <> b "symbol" -> okay ps -> okay_in c -> finely r)
    (fun v cs c r => all_syms fine_sym v -> okay cs -> okay_in c -> finely r)
    (fun p body items c r => all_syms ok_sym p -> okay body -> fine items -> okay_in c -> finely r)
    (fun name n drop vs c r => name <> b "symbol" -> okay vs -> okay_in c -> finely r)
    (fun name n st vs c r => name <> b "symbol" -> okay vs -> okay_in c ->
       forall items c', r = Ok (items, c') -> map snd items = vs /\ okay_in c')).
  all: try (intros; first [apply finely_err | apply finely_panic | eapply finely_fails; eassumption
    | eapply refused_not_ok; eassumption | discriminate
    | match goal with F : fails ?q ?r, X : ?r = Ok _ |- _ =>
        exfalso; rewrite X in F; destruct q; cbn in F; try contradiction; discriminate end]; fail).
  - (* atoms *) intros n a c A S O C. apply finely_ok; [|exact C]. apply one_fine. destruct n; try reflexivity; discriminate.
  - intros a c N O C. apply finely_ok; [|exact C]. constructor; [|constructor]. constructor; [|constructor].
    inversion O as [|? ? [G _] _]; subst. split; [exact G|].
    destruct (starts_with (b "%") (a_val a)) eqn:Q; [|reflexivity]. apply starts_with_iff in Q as [t Q]. destruct (N _ Q).
  - intros a name body c q N G _ IH O C. apply finely_changed; [intros ns; apply every_respaced|].
    apply IH; [|exact C]. exact (proj2 (C _ _ G)).
  - intros n name args c r K _ IH O C. destruct (name_ok _ _ _ K O) as [A B].
    apply IH; [exact A|apply every_received, B|exact C].
  - intros ns st ew es w c q N _ IH O C. apply every_list in O. apply finely_changed; [|apply IH; assumption].
    intros vs V. constructor; [|constructor]. apply every_list, V.
  - intros k v st w c x xs c1 _ IH O C. destruct (IH O C _ _ eq_refl) as [A B]. apply finely_ok; [|exact B].
    inversion A; subst. constructor; assumption.
  - intros c _ C. apply finely_ok; [constructor|exact C].
  - intros n ns c xs c1 q _ IH1 _ IH2 O C. inversion O; subst. destruct (IH1 H1 C _ _ eq_refl) as [A B].
    apply finely_changed; [|apply IH2; assumption]. intros l L. apply Forall_app. auto.
  - intros name meaning n ps c vs c1 r I _ IH M N O C. destruct (IH O C _ _ eq_refl) as [A B].
    exact (values_fine _ _ _ _ _ _ I N A B M).
  - intros name n ps c vs c1 m l q R _ IH G BL _ IH2 N O C. destruct (IH O C _ _ eq_refl) as [A B].
    destruct (B _ _ G) as [MP MB]. apply finely_within; [exact B|]. apply IH2; [exact MB|].
    apply defs_assign; [|exact B]. exact (proj1 (proj2 (binds_syms ok_sym)) _ _ _ BL MP (fine_ok_all _ A)).
  - (* define *) intros n a body c vs c1 _ IH N O C. inversion O; subst. destruct (IH H2 C _ _ eq_refl) as [A B].
    apply finely_ok; [constructor|]. apply defs_variable; [exact (fine_ok_all _ A)|exact B].
  - intros n a params st ew es w body c R N O C. inversion O; subst. apply every_list in H1. inversion H1; subst.
    apply finely_ok; [constructor|]. apply defs_put; assumption.
  - (* lambda *) intros n ps c head more params P L R N O C. apply finely_ok.
    + constructor; [|constructor]. constructor; [|constructor]. split; [intros X; vm_compute in X; discriminate X|reflexivity].
    + apply defs_put; [|apply every_drop, O|exact C]. apply every_positionals in O. rewrite P in O. inversion O; subst.
      destruct L as [params st ew es w|a]; [apply every_list in H1; exact H1|]. constructor; [assumption|constructor].
  - (* match *) intros n e cs c v c1 r _ IH _ IH2 N O C. inversion O; subst. destruct (IH H1 C _ _ eq_refl) as [A B].
    inversion A; subst. apply IH2; assumption.
  - (* ifdef *) intros n cond a yes no c q L A G _ IH N O C. inversion O; subst. inversion H2; subst.
    apply finely_changed; [intros ns; apply every_respaced|]. apply IH; assumption.
  - intros n cond a yes no c q A G _ IH N O C. inversion O; subst. inversion H2; subst. inversion H4; subst.
    apply finely_changed; [intros ns; apply every_respaced|]. apply IH; assumption.
  - intros n cond a yes c A G N O C. apply finely_ok; [constructor|exact C].
  - (* include *) intros n ps c v a c1 path text tree q _ IH A F S _ IH2 N O C. destruct (IH O C _ _ eq_refl) as [_ B].
    apply finely_changed; [intros ns; apply every_respaced|]. apply IH2; [|exact B].
    destruct F as [before [after [_ [_ R]]]]. apply syntax_iff in S; [|exact (TEXT _ _ R)].
    pose proof (FILES _ _ _ _ R S) as U. revert U. apply Forall_impl. intros t. apply unused_iff.
  - (* namespace *) intros n ps c name a rest c1 d _ IH A OP I N O C. destruct (IH O C _ _ eq_refl) as [V B].
    inversion V; subst. apply finely_ok; [apply every_after; assumption|]. exact (defs_imported _ _ _ _ _ I B C).
  - (* for *) intros n ps c p i items st ew es w more vs c1 q P I _ IH _ IH2 N O C. pose proof (every_drop _ _ 3 O) as D.
    apply every_positionals in O. rewrite P in O. inversion O as [|? ? O1 O2]; subst. inversion O2 as [|? ? _ O3]; subst.
    inversion O3 as [|? ? O4 _]; subst. apply every_list in O4. destruct (IH O4 C _ _ eq_refl) as [A B].
    apply finely_within; [exact B|]. apply IH2; assumption.
  - (* map *) intros n ps c vs c1 f more r _ IH P _ IH2 N O C. destruct (IH O C _ _ eq_refl) as [A B].
    apply IH2; [|apply every_drop, fine_ok_all, A|exact B].
    apply every_positionals in A. rewrite P in A. inversion A as [|? ? X _]; subst. inversion X as [|? ? [G _] _]; exact G.
  - intros n ps c vs c1 f more r _ IH P _ IH2 N O C. destruct (IH O C _ _ eq_refl) as [A B].
    apply IH2; [|apply every_drop, fine_ok_all, A|exact B].
    apply every_positionals in A. rewrite P in A. inversion A as [|? ? X _]; subst. inversion X as [|? ? [G _] _]; exact G.
  - intros n ps c vs c1 f more r _ IH P _ IH2 N O C. destruct (IH O C _ _ eq_refl) as [A B].
    apply IH2; [|apply every_drop, fine_ok_all, A|exact B].
    apply every_positionals in A. rewrite P in A. inversion A as [|? ? X _]; subst. inversion X as [|? ? [G _] _]; exact G.
  - (* sort *) intros n ps c vs c1 nodes st ew es w items c2 sorted ns _ IH A P _ IH2 S AR N O C.
    destruct (IH O C _ _ eq_refl) as [V B]. pose proof (key_macro_ok _ A V) as K.
    apply every_positionals in V. rewrite P in V. inversion V as [|? ? X _]; subst. apply every_list in X.
    destruct (IH2 K (fine_ok_all _ X) B _ _ eq_refl) as [M B2]. apply finely_ok; [|exact B2].
    constructor; [|constructor]. apply every_list. apply (every_arranged _ _ _ _ AR).
    apply (every_perm _ nodes); [|exact X]. rewrite <- M. apply Permutation_map. exact (sorts_perm _ _ _ S).
  - (* clauses *) intros v c V O C. apply finely_ok; [constructor|exact C].
  - intros v pat body st ew es w cs c p c1 r _ IH NB _ IH2 V O C. inversion O as [|? ? O1 O2]; subst. apply every_list in O1.
    inversion O1; subst. destruct (IH H1 C _ _ eq_refl) as [A B]. apply IH2; assumption.
  - intros v pat body st ew es w cs c p c1 l q _ IH BL _ IH2 V O C. inversion O as [|? ? O1 O2]; subst. apply every_list in O1.
    inversion O1; subst. destruct (IH H1 C _ _ eq_refl) as [A B]. inversion A as [|? ? H5 _]; subst. apply finely_within; [exact B|].
    apply IH2; [assumption|]. apply defs_assign; [|exact B].
    exact (proj1 (binds_syms ok_sym) _ _ _ BL (fine_ok_node _ H5) (fine_ok_node _ V)).
  - (* rounds *) intros p body c PO BO IO C. apply finely_ok; [constructor|exact C].
  - intros p body i items c l xs c1 q BL _ IH _ IH2 PO BO IO C. inversion IO; subst.
    destruct (IH BO (defs_assign _ _ _ (proj1 (binds_syms ok_sym) _ _ _ BL PO (fine_ok_node _ H1)) C) _ _ eq_refl) as [A B].
    apply finely_changed; [|apply IH2; assumption]. intros ns L. apply Forall_app. auto.
  - (* each *) intros name n drop c N O C. apply finely_ok; [constructor|exact C].
  - intros name n drop v vs c xs c1 q _ IH _ IH2 N O C. inversion O; subst.
    destruct (IH N (@List.Forall_cons _ _ _ _ H1 (List.Forall_nil _)) C _ _ eq_refl) as [A B].
    apply finely_changed; [|apply IH2; assumption]. intros ns L. apply Forall_app. split; [|exact L]. destruct (drop xs); [constructor|exact A].
  - (* keys *) intros name n st c N O C items c' X. injection X as <- <-. split; [reflexivity|exact C].
  - intros name n st v vs c k a c1 items c2 _ IH A _ IH2 N O C items' c' X. injection X as <- <-. inversion O; subst.
    destruct (IH N (@List.Forall_cons _ _ _ _ H1 (List.Forall_nil _)) C _ _ eq_refl) as [_ B].
    destruct (IH2 N H2 B _ _ eq_refl) as [M B2]. cbn. rewrite M. auto.
Qed.
End Rules.

(** ** Programs *)
Theorem program_final E path text ns c :
  reads_text E -> symbol_unused_in_files E -> dates_are_dates E -> utf8 text ->
  (forall tree, parse (e_unescape E) 0 text = Ok tree -> Forall symbol_unused tree) ->
  program_means E path text (Ok (ns, c)) -> Forall macro_free ns.
Proof.
  intros T F D U P H. inversion H; subst.
  - apply syntax_iff in H0; [|exact U]. pose proof (P _ H0) as O.
    assert (O' : Forall (all_syms ok_sym) tree) by (revert O; apply Forall_impl; intros t; apply unused_iff).
    destruct (proj1 (proj2 (means_fine E T F D)) _ _ _ H1 O') with (ns := ns) (c := c) as [A _]; [|reflexivity|].
    + intros k m G. cbn in G. rewrite get_no_defs in G. discriminate.
    + revert A. apply Forall_impl. exact fine_free.
  - destruct q; cbn in *; try contradiction; discriminate.
Qed.
