(** * Proof of C74: what a program does not mention it cannot use *)

From Coq Require Import String List Ascii Bool Arith NArith ZArith Permutation Lia.
From Verif Require Import Text Utf8 Res Ast Env Scope State Numbers Data Sorting Paths Parser
  Spec_args Spec_expand Spec_builtin Spec_bind Spec_control Spec_sort Spec_data Spec_world Spec_errors Spec_scope Spec_place
  Spec_events Spec_final Spec_keep Spec_power Proofs_text Proofs_args Proofs_simple Proofs_builtin Proofs_sort Proofs_bind
  Proofs_data Proofs_keep Proofs_events Proofs_place Proofs_final.
From Verif Require Import Args Expander Spec_lang.
Import ListNotations.

(** ** Relations on a single field of the environment *)

Lemma yaml_same E E' text sep st d q : e_yaml E = e_yaml E' -> YamlText E text sep st d q -> YamlText E' text sep st d q.
Proof. intros Y H. destruct H; rewrite Y in H; econstructor; eassumption. Qed.
Lemma toml_same E E' text sep st d q : e_toml E = e_toml E' -> TomlText E text sep st d q -> TomlText E' text sep st d q.
Proof. intros Y H. destruct H; rewrite Y in H; econstructor; eassumption. Qed.
Lemma readable_same E E' ps p text : e_read E = e_read E' -> first_readable E ps p text -> first_readable E' ps p text.
Proof. unfold first_readable. intros ->. auto. Qed.
Lemma unreadable_same E E' ps : e_read E = e_read E' -> none_readable E ps -> none_readable E' ps.
Proof. unfold none_readable. intros ->. auto. Qed.
Lemma zone_same E E' a q : e_fixed E = e_fixed E' -> e_local E = e_local E' -> zone E a q -> zone E' a q.
Proof. intros F L H. destruct H; try (rewrite F in H; econstructor; eassumption). rewrite L. constructor. Qed.
Lemma dated_same E E' fmt off zst l q : e_time_ok E = e_time_ok E' -> e_date E = e_date E' ->
  dated E fmt off zst l q -> dated E' fmt off zst l q.
Proof. intros T D H. destruct H; rewrite ?T, ?D in *; econstructor; eassumption. Qed.
Lemma timed_same E E' fmt date off st zst q : e_time_ok E = e_time_ok E' -> e_parse_date E = e_parse_date E' ->
  e_parse_naive E = e_parse_naive E' -> timed E fmt date off st zst q -> timed E' fmt date off st zst q.
Proof. intros T D N H. destruct H; rewrite ?T, ?D, ?N in *; econstructor; eassumption. Qed.
Lemma collected_same {A} E E' cmp (l l' : list A) : e_unlisted E = e_unlisted E' -> collected E cmp l l' -> collected E' cmp l l'.
Proof. intros U H. destruct H; rewrite ?U in *; econstructor; eassumption. Qed.
Lemma sorts_same {A} E E' cmp (l : list A) q : e_unsorted E = e_unsorted E' -> sorts E cmp l q -> sorts E' cmp l q.
Proof. intros U H. destruct H; rewrite ?U in *; econstructor; eassumption. Qed.
Lemma sort_order_same E E' vs : e_float E = e_float E' -> sort_order E vs = sort_order E' vs.
Proof. intros F. unfold sort_order, by_key, key_cmp. rewrite F. reflexivity. Qed.

(** ** Symbols that do not name a withheld macro *)

Section Withheld.
Variable M : list bytes.
Hypothesis WITHHELD : withheld M.

Definition ok_sym (v : bytes) : Prop := forall m, In m M -> v <> m /\ v <> b "%" ++ m.
Lemma without_iff n : without M n <-> all_syms ok_sym n.
Proof.
  unfold without, mentioned, all_syms, ok_sym. rewrite Forall_forall. split.
  - intros H v I m J. split; intros ->; apply (H _ J); auto.
  - intros H m J [I|I]; destruct (H _ I _ J); congruence.
Qed.
(** Only the names of built-in macros are withheld. *)
Definition never (v : bytes) : bool := forallb (fun x => negb (beq v (fst x)) && negb (beq v (b "%" ++ fst x))) builtins.
Lemma never_ok v : never v = true -> ok_sym v.
Proof.
  intros H m I. destruct WITHHELD as [_ [_ R]]. apply R in I. unfold reserved in I. apply in_map_iff in I as [x [<- I]].
  unfold never in H. rewrite forallb_forall in H. apply H in I. apply andb_prop in I as [A B].
  apply negb_true_iff, beq_neq in A. apply negb_true_iff, beq_neq in B. auto.
Qed.
Lemma true_ok : ok_sym (b "true"). Proof. apply never_ok. vm_compute. reflexivity. Qed.
Lemma false_ok : ok_sym (b "false"). Proof. apply never_ok. vm_compute. reflexivity. Qed.
Definition first_char (v : bytes) : option ascii := match v with [] => None | c :: _ => Some c end.
(** No built-in macro starts with these characters. *)
Lemma first_ok c v : existsb (fun x => match fst x with d :: _ => ch c d | [] => false end || ch c "%") builtins = false ->
  ok_sym (c :: v).
Proof.
  intros H m I. destruct WITHHELD as [_ [_ R]]. apply R in I. unfold reserved in I. apply in_map_iff in I as [x [<- I]].
  destruct (match fst x with d :: _ => ch c d | [] => false end || ch c "%") eqn:Q.
  { exfalso. assert (X : existsb (fun x => match fst x with d :: _ => ch c d | [] => false end || ch c "%") builtins = true).
    { apply existsb_exists. exists x. auto. } rewrite X in H. discriminate. }
  apply orb_false_iff in Q as [A B]. apply Ascii.eqb_neq in B. destruct (fst x) as [|d t].
  - split; [discriminate|]. intros X. vm_compute in X. injection X. intros _ X'. contradiction.
  - apply Ascii.eqb_neq in A. split; [congruence|]. intros X. cbn in X. injection X. intros _ X'. contradiction.
Qed.
Lemma digit_ok v : starts_with_digit v -> ok_sym v.
Proof.
  destruct v as [|c v]; [contradiction|]. cbn [starts_with_digit]. intros [A B].
  change (nat_of_ascii "0") with 48 in A. change (nat_of_ascii "9") with 57 in B. apply first_ok.
  assert (D : forall d, 57 < nat_of_ascii d \/ nat_of_ascii d < 48 -> ch c d = false).
  { intros d X. apply Ascii.eqb_neq. intros ->. lia. }
  apply not_true_iff_false. intros X. apply existsb_exists in X as [x [I X]].
  rewrite (D "%"%char), orb_false_r in X by (right; apply Nat.ltb_lt; vm_compute; reflexivity).
  assert (F : forallb (fun x => match fst x with d :: _ => 57 <? nat_of_ascii d | [] => true end) builtins = true) by (vm_compute; reflexivity).
  rewrite forallb_forall in F. apply F in I. destruct (fst x) as [|d t]; [discriminate X|].
  rewrite D in X; [discriminate X|]. left. apply Nat.ltb_lt, I.
Qed.
Lemma lambda_ok E c st : ok_sym (lambda_name E c st).
Proof. unfold lambda_name. cbn [b list_ascii_of_string app]. apply first_ok. vm_compute. reflexivity. Qed.

Notation okay := (Forall (all_syms ok_sym)).
Definition okay_in (c : context) : Prop := defs_syms ok_sym (k_defs c).
(** What a block may do to its context. *)
Definition kept (c c' : context) : Prop :=
  okay_in c' /\ (In (b "log") M -> k_log c' = k_log c) /\ (In (b "include") M -> k_files c' = k_files c).
Definition well (c : context) (r : result) : Prop := forall ns c', r = Ok (ns, c') -> okay ns /\ kept c c'.

Lemma kept_trans c1 c2 c3 : kept c1 c2 -> kept c2 c3 -> kept c1 c3.
Proof.
  intros [A [B C]] [A' [B' C']]. split; [exact A'|]. split; intros I; [rewrite (B' I); auto|rewrite (C' I); auto].
Qed.
Lemma kept_refl c : okay_in c -> kept c c.
Proof. intros H. split; auto. Qed.
Lemma kept_defs d c : defs_syms ok_sym d -> kept c (with_defs d c).
Proof. intros H. split; auto. Qed.
Lemma well_trans c c1 q : kept c c1 -> well c1 q -> well c q.
Proof. intros K W ns c' X. destruct (W _ _ X). split; [assumption|]. eapply kept_trans; eassumption. Qed.
Lemma well_changed c f q : (forall ns, okay ns -> okay (f ns)) -> well c q -> well c (changed f q).
Proof.
  intros F H ns c' X. destruct q as [[ns' c2]| | | |]; try discriminate. injection X as <- <-.
  destruct (H _ _ eq_refl) as [A B]. split; [apply F, A|exact B].
Qed.
Lemma well_within c d q : okay_in c -> well (with_defs d c) q -> well c (within c q).
Proof.
  intros C H ns c' X. destruct q as [[ns' c2]| | | |]; try discriminate. injection X as <- <-.
  destruct (H _ _ eq_refl) as [A [_ [B B']]]. split; [exact A|]. split; [exact C|]. split; assumption.
Qed.
Lemma well_within' c q : okay_in c -> well c q -> well c (within c q).
Proof. destruct c as [d l fs]. intros C H. apply well_within with d; assumption. Qed.
Lemma well_fails {A} c (q : res A) r : fails q r -> well c r.
Proof. intros F ns c' ->. destruct q; cbn in F; try contradiction; discriminate. Qed.
Lemma well_err c e : well c (Err e).
Proof. intros ns c' X. discriminate. Qed.
Lemma well_panic c e : well c (Panic e).
Proof. intros ns c' X. discriminate. Qed.
Lemma well_ok ns c c' : okay ns -> kept c c' -> well c (Ok (ns, c')).
Proof. intros A B ns' c2 X. injection X as <- <-. auto. Qed.
Lemma well_refused c rs n vs (r : result) : refused rs n vs r -> well c r.
Proof. intros [k [st [-> _]]]. apply well_err. Qed.

Section Rules.
Variables E E' : env.
Hypothesis TEXT : In (b "include") M \/ reads_text E.
Hypothesis FILES : In (b "include") M \/
    forall path text id tree, e_read E path = Some text -> parse (e_unescape E) id text = Ok tree ->
      Forall (without M) tree.
Hypothesis DATES : incl [b "toml"; b "markdown"] M \/ dates_are_dates E.
Hypothesis SAME : same_but M E E'.

Ltac held := match goal with H : incl ?l M \/ _, N : ~ In _ M |- _ =>
  destruct H as [H|H]; [exfalso; apply N, H; cbn; tauto|] end.
Tactic Notation "use" constr(f) := let H := fresh in pose proof (f M E E' SAME) as H; held.

Lemma toml_ok text t : (~ In (b "toml") M \/ ~ In (b "markdown") M) -> e_toml E text = Some t -> Forall ok_sym (toml_dates (TomlTable t)).
Proof.
  intros N H. destruct DATES as [I|D].
  - exfalso. destruct N as [N|N]; apply N, I; cbn; tauto.
  - apply D in H. revert H. apply Forall_impl. exact digit_ok.
Qed.
Lemma okay_one n : symbols n = [] -> okay [n].
Proof. intros H. constructor; [|constructor]. unfold all_syms. rewrite H. constructor. Qed.
Lemma paths_okay st fs : okay (path_nodes st fs).
Proof.
  destruct fs as [|f fs]; [constructor|]. constructor; [constructor|]. rewrite Forall_map. apply Forall_forall. intros. constructor.
Qed.

Lemma front_same n vs c a q : ~ In (b "markdown") M -> okay_in c -> front E n vs c a q ->
  front E' n vs c a q /\ forall x d, q = Ok (x, d) -> defs_syms ok_sym d.
Proof.
  intros N C H. use by_markdown. use by_yaml. use by_toml. destruct H0 as [_ F].
  destruct H; rewrite F in *.
  - split; [apply front_none; assumption|]. intros x d X. injection X as <- <-. exact C.
  - split; [eapply front_yaml; [eassumption|eapply yaml_same; eassumption]|]. intros x d' X. injection X as <- <-.
    eapply yaml_syms with (Q := ok_sym) (R := ok_sym); [auto|eassumption|exact C].
  - split; [eapply front_yaml_panic; [eassumption|eapply yaml_same; eassumption|assumption]|]. intros x d ->.
    destruct q; cbn in *; try contradiction; discriminate.
  - split; [eapply front_toml; [eassumption|eapply toml_same; eassumption]|]. intros x d' X. injection X as <- <-.
    eapply toml_defs_syms; [exact true_ok|exact false_ok|intros t; apply toml_ok; auto|eassumption|exact C].
Qed.
Lemma html_same n c a d r : ~ In (b "markdown") M -> defs_syms ok_sym d -> html E n c a d r -> html E' n c a d r /\ well c r.
Proof.
  intros N D H. use by_markdown. destruct H0 as [F _].
  destruct H; rewrite F in *; (split; [constructor; assumption|]); [|apply well_err].
  apply well_ok; [apply okay_one; reflexivity|apply kept_defs, D].
Qed.

Lemma values_same name meaning n vs c r :
  In (name, meaning) on_values -> ~ In name M -> okay vs -> okay_in c -> meaning E n vs c r ->
  meaning E' n vs c r /\ well c r.
Proof.
  intros I NS V C. unfold on_values in I. cbn [In] in I.
  repeat match goal with H : _ \/ _ |- _ => destruct H as [H|H] end; try contradiction;
    injection I as <- <-; intros H; try (split; [exact H|]).
  - destruct H. apply well_ok; [assumption|apply kept_refl, C].
  - destruct H as [p path v m A P T R|]; [|apply well_err]. apply well_ok; [|apply kept_refl, C].
    constructor; [|constructor]. apply (every_reaches _ _ _ _ R).
    apply every_positionals in V. rewrite P in V. inversion V as [|? ? _ V2]; subst. inversion V2; assumption.
  - destruct H; [|apply well_err]. apply well_ok; [apply okay_one; reflexivity|apply kept_refl, C].
  - destruct H; [|apply well_err]. apply well_ok; [apply okay_one; reflexivity|apply kept_refl, C].
  - destruct H. apply well_ok; [|apply kept_refl, C]. rewrite Forall_map. apply Forall_forall. intros. constructor.
  - exfalso. apply NS. apply WITHHELD.
  - use by_files. destruct H0 as [R I].
    destruct H; (split; [|first [apply well_err | apply well_ok; [apply okay_one; reflexivity|apply kept_refl, C]]]).
    + rewrite I in *. eapply embeds_file; try eassumption. eapply readable_same; eassumption.
    + rewrite I in *. eapply embeds_missing; try eassumption. eapply unreadable_same; eassumption.
    + eapply embeds_other; eassumption.
    + eapply embeds_count; eassumption.
  - destruct H as [a r D O H|a d D O F|a q d r D O F X|a q d r D O F H|a q r D O F X].
    + destruct (html_same _ _ _ _ _ NS C H) as [A B]. split; [eapply marks_content; eassumption|exact B].
    + destruct (front_same _ _ _ _ _ NS C F) as [A B]. split; [eapply marks_front; eassumption|].
      apply well_ok; [constructor|apply kept_defs; eauto].
    + destruct (front_same _ _ _ _ _ NS C F) as [A B]. split; [eapply marks_no_front; eassumption|]. eapply well_fails; eassumption.
    + destruct (front_same _ _ _ _ _ NS C F) as [A B]. destruct (html_same _ _ _ _ _ NS (B _ _ eq_refl) H) as [A' B'].
      split; [eapply marks_both; eassumption|exact B'].
    + destruct (front_same _ _ _ _ _ NS C F) as [A B]. split; [eapply marks_panic; eassumption|]. eapply well_fails; eassumption.
  - use by_yaml. destruct H as [a ns d D Y|a q d r D Y X|a q r D Y X].
    + split; [eapply reads_yaml_ok; [eassumption|eapply yaml_same; eassumption]|].
      destruct (yaml_syms ok_sym ok_sym (fun _ h => h) _ _ _ _ _ _ _ Y C) as [A B]. apply well_ok; [exact (B _ eq_refl)|apply kept_defs, A].
    + split; [eapply reads_yaml_error; [eassumption|eapply yaml_same; eassumption|assumption]|eapply well_fails; eassumption].
    + split; [eapply reads_yaml_panic; [eassumption|eapply yaml_same; eassumption|assumption]|eapply well_fails; eassumption].
  - use by_yaml. destruct H as [a ns d D Y|a q d r D Y X|a q r D Y X].
    + split; [eapply reads_yaml_ok; [eassumption|eapply yaml_same; eassumption]|].
      destruct (yaml_syms ok_sym ok_sym (fun _ h => h) _ _ _ _ _ _ _ Y C) as [A B]. apply well_ok; [exact (B _ eq_refl)|apply kept_defs, A].
    + split; [eapply reads_yaml_error; [eassumption|eapply yaml_same; eassumption|assumption]|eapply well_fails; eassumption].
    + split; [eapply reads_yaml_panic; [eassumption|eapply yaml_same; eassumption|assumption]|eapply well_fails; eassumption].
  - use by_toml. destruct H as [a ns d D Y|a q d r D Y X].
    + split; [eapply reads_toml_ok; [eassumption|eapply toml_same; eassumption]|]. apply well_ok.
      * eapply toml_nodes_syms; [exact true_ok|exact false_ok|intros t; apply toml_ok; auto|eassumption].
      * apply kept_defs. eapply toml_defs_syms; [exact true_ok|exact false_ok|intros t; apply toml_ok; auto|eassumption|exact C].
    + split; [eapply reads_toml_error; [eassumption|eapply toml_same; eassumption|assumption]|eapply well_fails; eassumption].
  - use by_glob. destruct H0 as [G U]. destruct H as [pat t k up r A H].
    destruct H; (split; [econstructor; [eassumption|]; rewrite G in *|]); try apply well_err; try apply well_panic.
    + eapply lists_ok; try eassumption. eapply collected_same; eassumption.
    + apply well_ok; [apply paths_okay|apply kept_refl, C].
    + eapply lists_pattern; eassumption.
    + eapply lists_error; eassumption.
    + eapply lists_panic; eassumption.
  - destruct H as [ns st ew es w ns' -> R]. apply well_ok; [|apply kept_refl, C]. inversion V; subst.
    constructor; [|constructor]. apply every_list. apply every_list in H1. exact (every_reversal _ _ _ R H1).
  - use by_zone. use by_date. destruct H0 as [F [L T]].
    destruct H; (split; [|first [eapply well_fails; eassumption | apply well_ok; [apply okay_one; reflexivity|apply kept_refl, C]]]).
    + eapply dates_ok; [eassumption|eapply zone_same; eassumption|eapply dated_same; eassumption].
    + eapply dates_fails; [eassumption|eapply zone_same; eassumption|eapply dated_same; eassumption|assumption].
    + eapply dates_zone; [eassumption|eapply zone_same; eassumption|assumption].
  - use by_zone. use by_timestamp. destruct H0 as [F [L T]]. destruct H1 as [D N].
    destruct H; (split; [|first [eapply well_fails; eassumption | apply well_ok; [apply okay_one; reflexivity|apply kept_refl, C]]]).
    + eapply stamps_ok; [eassumption|eapply zone_same; eassumption|eapply timed_same; eassumption].
    + eapply stamps_fails; [eassumption|eapply zone_same; eassumption|eapply timed_same; eassumption|assumption].
    + eapply stamps_zone; [eassumption|eapply zone_same; eassumption|assumption].
  - destruct H. apply well_ok; [apply okay_one; reflexivity|apply kept_refl, C].
  - destruct H. apply well_ok; [apply okay_one; reflexivity|apply kept_refl, C].
  - destruct H. apply well_ok; [apply every_splat, V|apply kept_refl, C].
  - destruct H; [|apply well_panic]. apply well_ok; [|apply kept_refl, C]. constructor; [|constructor]. apply every_list, V.
  - destruct H. apply well_ok; [apply every_respaced, V|apply kept_refl, C].
  - destruct H; [|apply well_err]. apply well_ok; [constructor|]. split; [exact C|]. split; [contradiction|reflexivity].
  - use by_format. destruct H0 as [F T].
    destruct H; (split; [|first [apply well_err | apply well_ok; [apply okay_one; reflexivity|apply kept_refl, C]]]); rewrite ?F, ?T in *.
    + eapply formats_ok; eassumption.
    + eapply formats_fails; eassumption.
    + eapply formats_value; eassumption.
    + eapply formats_template; eassumption.
    + eapply formats_other; eassumption.
    + eapply formats_none; eassumption.
  - use by_env. destruct H; (split; [|first [apply well_err | apply well_ok; [apply okay_one; reflexivity|apply kept_refl, C]]]); rewrite ?H0 in *.
    + eapply looks_up_ok; try eassumption.
    + eapply looks_up_unset; try eassumption.
    + eapply looks_up_other; eassumption.
    + eapply looks_up_count; eassumption.
Qed.

Lemma key_macro_ok vs : accepted rules_sort vs -> okay vs -> ~ In (key_macro vs) M.
Proof.
  intros A V. apply accepted_sort in A as [v [_ O]]. unfold key_macro, chosen.
  destruct (keyword_value (b "key") vs) as [k|] eqn:K; [|apply WITHHELD].
  pose proof (every_keyword _ _ _ _ V K) as F. apply keyword_in in K as [st [w I]].
  destruct (O _ _ _ _ I) as [[X _]|[_ [a ->]]]; [vm_compute in X; discriminate X|].
  cbn. inversion F as [|? ? G _]; subst. intros J. destruct (G _ J). congruence.
Qed.
Lemma name_ok name args n : is_call name args n -> all_syms ok_sym n -> ~ In name M /\ okay args.
Proof.
  intros [a [st [ew [es [w [-> Q]]]]]] H. apply every_list in H. inversion H as [|? ? S R]; subst. split; [|exact R].
  inversion S as [|? ? G _]; subst. intros J. destruct (G _ J) as [_ G2]. apply G2, Q.
Qed.
Lemma first_name f more vs : okay vs -> positionals vs = Sym f :: more -> ~ In (a_val f) M.
Proof.
  intros A P. apply every_positionals in A. rewrite P in A. inversion A as [|? ? X _]; subst.
  inversion X as [|? ? G _]; subst. intros J. destruct (G _ J). congruence.
Qed.

(** The same rules can be used in the other world. *)
Lemma means_same :
  (forall n c r, means E n c r -> all_syms ok_sym n -> okay_in c -> means E' n c r /\ well c r) /\
  (forall ns c r, means_all E ns c r -> okay ns -> okay_in c -> means_all E' ns c r /\ well c r) /\
  (forall name n ps c r, runs E name n ps c r -> ~ In name M -> okay ps -> okay_in c -> runs E' name n ps c r /\ well c r) /\
  (forall v cs c r, clauses E v cs c r -> all_syms ok_sym v -> okay cs -> okay_in c -> clauses E' v cs c r /\ well c r) /\
  (forall p body items c r, rounds E p body items c r ->
     all_syms ok_sym p -> okay body -> okay items -> okay_in c -> rounds E' p body items c r /\ well c r) /\
  (forall name n drop vs c r, each E name n drop vs c r -> ~ In name M -> okay vs -> okay_in c ->
     each E' name n drop vs c r /\ well c r) /\
  (forall name n st vs c r, keys E name n st vs c r -> ~ In name M -> okay vs -> okay_in c ->
     keys E' name n st vs c r /\ forall items c', r = Ok (items, c') -> map snd items = vs /\ kept c c').
Proof.
  apply (means_mutind E
    (fun n c r => all_syms ok_sym n -> okay_in c -> means E' n c r /\ well c r)
    (fun ns c r => okay ns -> okay_in c -> means_all E' ns c r /\ well c r)
    (fun name n ps c r => ~ In name M -> okay ps -> okay_in c -> runs E' name n ps c r /\ well c r)
    (fun v cs c r => all_syms ok_sym v -> okay cs -> okay_in c -> clauses E' v cs c r /\ well c r)
    (fun p body items c r => all_syms ok_sym p -> okay body -> okay items -> okay_in c -> rounds E' p body items c r /\ well c r)
    (fun name n drop vs c r => ~ In name M -> okay vs -> okay_in c -> each E' name n drop vs c r /\ well c r)
    (fun name n st vs c r => ~ In name M -> okay vs -> okay_in c ->
       keys E' name n st vs c r /\ forall items c', r = Ok (items, c') -> map snd items = vs /\ kept c c')).
  - (* atoms *) intros n a c A S O C. split; [econstructor; eassumption|]. apply well_ok; [|apply kept_refl, C].
    apply okay_one. destruct n; try reflexivity; discriminate.
  - intros a c N O C. split; [constructor; assumption|]. apply well_ok; [|apply kept_refl, C]. constructor; [exact O|constructor].
  - intros a name body c q N G _ IH O C. destruct (IH (proj2 (C _ _ G)) C) as [A B].
    split; [eapply means_variable; eassumption|]. apply well_changed; [intros ns; apply every_respaced|exact B].
  - intros a name c N G O C. split; [eapply means_undefined; eassumption|apply well_err].
  - intros n name args c r K _ IH O C. destruct (name_ok _ _ _ K O) as [A B].
    destruct (IH A (every_received _ _ B) C) as [A' B']. split; [eapply means_call; eassumption|exact B'].
  - intros ns st ew es w c q N _ IH O C. apply every_list in O. destruct (IH O C) as [A B].
    split; [apply means_list; assumption|]. apply well_changed; [|exact B].
    intros vs V. constructor; [|constructor]. apply every_list, V.
  - intros k v st w c x xs c1 _ IH O C. destruct (IH O C) as [A B]. split; [eapply means_attr; eassumption|].
    destruct (B _ _ eq_refl) as [B1 B2]. apply well_ok; [|exact B2]. inversion B1; subst. constructor; assumption.
  - intros k v st w c c1 _ IH O C. destruct (IH O C) as [A B]. split; [eapply means_attr_nothing; eassumption|apply well_panic].
  - intros k v st w c q r _ IH F O C. destruct (IH O C) as [A B]. split; [eapply means_attr_fails; eassumption|eapply well_fails; eassumption].
  - (* nodes *) intros c _ C. split; [constructor|]. apply well_ok; [constructor|apply kept_refl, C].
  - intros n ns c xs c1 q _ IH1 _ IH2 O C. inversion O; subst. destruct (IH1 H1 C) as [A B]. destruct (B _ _ eq_refl) as [B1 B2].
    destruct (IH2 H2 (proj1 B2)) as [A' B']. split; [eapply means_cons; eassumption|].
    apply well_changed; [intros l L; apply Forall_app; auto|]. eapply well_trans; eassumption.
  - intros n ns c q r _ IH F O C. inversion O; subst. destruct (IH H1 C) as [A B]. split; [eapply means_stop; eassumption|eapply well_fails; eassumption].
  - (* calls *) intros name meaning n ps c vs c1 r I _ IH MN N O C. destruct (IH O C) as [A B]. destruct (B _ _ eq_refl) as [B1 B2].
    destruct (values_same _ _ _ _ _ _ I N B1 (proj1 B2) MN) as [A' B']. split; [eapply runs_values; eassumption|eapply well_trans; eassumption].
  - intros name n ps c q r EF _ IH F N O C. destruct (IH O C) as [A B]. split; [eapply runs_fails; eassumption|eapply well_fails; eassumption].
  - intros name rs n ps c vs c1 r I _ IH R N O C. destruct (IH O C) as [A B]. split; [eapply runs_refused; eassumption|eapply well_refused; eassumption].
  - intros name n ps c vs c1 m l q R _ IH G BL _ IH2 N O C. destruct (IH O C) as [A B]. destruct (B _ _ eq_refl) as [B1 B2].
    destruct (proj1 B2 _ _ G) as [MP MB].
    assert (D : okay_in (with_defs (assign l (k_defs c1)) c1)).
    { apply defs_assign; [|apply B2]. exact (proj1 (proj2 (binds_syms ok_sym)) _ _ _ BL MP B1). }
    destruct (IH2 MB D) as [A' B']. split; [eapply runs_body; eassumption|]. eapply well_trans; [exact B2|].
    eapply well_within; [apply B2|exact B'].
  - intros name n ps c vs c1 m k st R _ IH G MM N O C. destruct (IH O C) as [A B]. split; [eapply runs_mismatch; eassumption|apply well_err].
  - intros name n ps c vs c1 R _ IH G N O C. destruct (IH O C) as [A B]. split; [eapply runs_unknown; eassumption|apply well_err].
  - (* define *) intros n a body c vs c1 _ IH N O C. inversion O; subst. destruct (IH H2 C) as [A B]. destruct (B _ _ eq_refl) as [B1 B2].
    split; [eapply define_variable; eassumption|]. apply well_ok; [constructor|]. eapply kept_trans; [exact B2|].
    apply kept_defs. apply defs_variable; [exact B1|apply B2].
  - intros n a body c q r _ IH F N O C. inversion O; subst. destruct (IH H2 C) as [A B]. split; [eapply define_fails; eassumption|eapply well_fails; eassumption].
  - intros n a params st ew es w body c R N O C. inversion O; subst. apply every_list in H1. inversion H1; subst.
    split; [eapply define_macro; eassumption|]. apply well_ok; [constructor|]. apply kept_defs. apply defs_put; assumption.
  - intros n a params st ew es w body c p X N O C. split; [eapply define_excess; eassumption|apply well_err].
  - intros n head body c bad X N O C. split; [eapply define_head; eassumption|apply well_err].
  - intros n c N O C. split; [eapply define_nothing|apply well_err].
  - (* lambda *) intros n ps c head more params P L R N O C. use by_lambda.
    assert (X : lambda_name E c (node_site n) = lambda_name E' c (node_site n)) by (unfold lambda_name; rewrite H; reflexivity).
    split; [rewrite X; eapply lambda_made; eassumption|]. apply well_ok.
    + constructor; [|constructor]. constructor; [apply lambda_ok|constructor].
    + apply kept_defs. apply defs_put; [|apply every_drop, O|exact C]. apply every_positionals in O. rewrite P in O. inversion O; subst.
      destruct L as [params st ew es w|a]; [apply every_list in H2; exact H2|]. constructor; [assumption|constructor].
  - intros n ps c head more params p P L X N O C. split; [eapply lambda_excess; eassumption|apply well_err].
  - intros n ps c head more P S L N O C. split; [eapply lambda_head; eassumption|apply well_err].
  - intros n ps c r R N O C. split; [eapply lambda_refused; eassumption|eapply well_refused; eassumption].
  - (* match *) intros n e cs c v c1 r _ IH _ IH2 N O C. inversion O; subst. destruct (IH H1 C) as [A B]. destruct (B _ _ eq_refl) as [B1 B2].
    inversion B1; subst. destruct (IH2 H3 H2 (proj1 B2)) as [A' B']. split; [eapply match_value; eassumption|eapply well_trans; eassumption].
  - intros n e cs c q r _ IH F N O C. inversion O; subst. destruct (IH H1 C) as [A B]. split; [eapply match_fails; eassumption|eapply well_fails; eassumption].
  - intros n e cs c vs c1 _ IH L N O C. inversion O; subst. destruct (IH H1 C) as [A B]. split; [eapply match_values; eassumption|apply well_err].
  - intros n c N O C. split; [apply match_nothing|apply well_err].
  - (* ifdef *) intros n cond a yes no c q L A G _ IH N O C. inversion O; subst. inversion H2; subst. destruct (IH H3 C) as [A' B'].
    split; [eapply ifdef_yes; eassumption|]. apply well_changed; [intros ns; apply every_respaced|exact B'].
  - intros n cond a yes no c q A G _ IH N O C. inversion O; subst. inversion H2; subst. inversion H4; subst. destruct (IH H5 C) as [A' B'].
    split; [eapply ifdef_no; eassumption|]. apply well_changed; [intros ns; apply every_respaced|exact B'].
  - intros n cond a yes c A G N O C. split; [eapply ifdef_not; eassumption|]. apply well_ok; [constructor|apply kept_refl, C].
  - intros n cond yes no c L A N O C. split; [eapply ifdef_name; eassumption|apply well_err].
  - intros n ps c L L' N O C. split; [eapply ifdef_count; eassumption|apply well_err].
  - (* include *) intros n ps c v a c1 path text tree q _ IH A F S _ IH2 N O C. destruct (IH O C) as [A1 B]. destruct (B _ _ eq_refl) as [B1 B2].
    destruct TEXT as [?|TX]; [contradiction|]. destruct FILES as [?|FX]; [contradiction|]. use by_files. destruct H as [RD IN].
    assert (OT : okay tree).
    { destruct F as [before [after [_ [_ R]]]]. apply syntax_iff in S; [|exact (TX _ _ R)].
      pose proof (FX _ _ _ _ R S) as U. revert U. apply Forall_impl. intros t. apply without_iff. }
    destruct (IH2 OT (proj1 B2)) as [A' B']. rewrite IN in F. rewrite (by_unescape _ _ _ SAME) in S.
    split; [eapply include_file; try eassumption; eapply readable_same; eassumption|].
    apply well_changed; [intros ns; apply every_respaced|]. eapply well_trans; [exact B2|].
    intros xs c' X. destruct (B' _ _ X) as [X1 [X2 [X3 X4]]]. split; [exact X1|]. split; [exact X2|]. split; [exact X3|contradiction].
  - intros n ps c v a c1 path text e _ IH A F S N O C. destruct (IH O C) as [A1 B]. use by_files. destruct H as [RD IN].
    rewrite IN in F. rewrite (by_unescape _ _ _ SAME) in S. split; [|apply well_err].
    eapply include_syntax; try eassumption; eapply readable_same; eassumption.
  - intros n ps c v a c1 path text q r _ IH A F S NE X N O C. destruct (IH O C) as [A1 B]. use by_files. destruct H as [RD IN].
    rewrite IN in F. rewrite (by_unescape _ _ _ SAME) in S. split; [|eapply well_fails; eassumption].
    eapply include_stops; try eassumption; eapply readable_same; eassumption.
  - intros n ps c v a c1 _ IH A F N O C. destruct (IH O C) as [A1 B]. use by_files. destruct H as [RD IN].
    rewrite IN in F. split; [|apply well_err]. eapply include_missing; try eassumption; eapply unreadable_same; eassumption.
  - intros n ps c v c1 _ IH A N O C. destruct (IH O C) as [A1 B]. split; [eapply include_other; eassumption|apply well_err].
  - intros n ps c vs c1 _ IH A N O C. destruct (IH O C) as [A1 B]. split; [eapply include_count; eassumption|apply well_err].
  - (* namespace *) intros n ps c name a rest c1 d _ IH A OP I N O C. destruct (IH O C) as [A1 B]. destruct (B _ _ eq_refl) as [B1 B2].
    split; [eapply namespace_ok; eassumption|].
    inversion B1; subst. apply well_ok; [apply every_after; assumption|]. destruct B2 as [X2 [X3 X4]]. split; [|split; assumption].
    exact (defs_imported _ _ _ _ _ I X2 C).
  - intros n ps c name a rest c1 st _ IH A OP N O C. destruct (IH O C) as [A1 B]. split; [eapply namespace_option; eassumption|apply well_err].
  - intros n ps c vs c1 _ IH A N O C. destruct (IH O C) as [A1 B]. split; [eapply namespace_name; eassumption|apply well_err].
  - (* for *) intros n ps c p i items st ew es w more vs c1 q P I _ IH _ IH2 N O C. pose proof (every_drop _ _ 3 O) as D.
    apply every_positionals in O. rewrite P in O. inversion O as [|? ? O1 O2]; subst. inversion O2 as [|? ? _ O3]; subst.
    inversion O3 as [|? ? O4 _]; subst. apply every_list in O4. destruct (IH O4 C) as [A B]. destruct (B _ _ eq_refl) as [B1 B2].
    destruct (IH2 O1 D B1 (proj1 B2)) as [A' B']. split; [eapply for_loop; eassumption|]. eapply well_trans; [exact B2|].
    apply well_within'; [apply B2|exact B'].
  - intros n ps c p i items st ew es w more q r P I _ IH F N O C.
    apply every_positionals in O. rewrite P in O. inversion O as [|? ? O1 O2]; subst. inversion O2 as [|? ? _ O3]; subst.
    inversion O3 as [|? ? O4 _]; subst. apply every_list in O4. destruct (IH O4 C) as [A B].
    split; [eapply for_fails; eassumption|eapply well_fails; eassumption].
  - intros n ps c r R N O C. split; [eapply for_refused; eassumption|eapply well_refused; eassumption].
  - (* map *) intros n ps c vs c1 f more r _ IH P _ IH2 N O C. destruct (IH O C) as [A B]. destruct (B _ _ eq_refl) as [B1 B2].
    destruct (IH2 (first_name _ _ _ B1 P) (every_drop _ _ 1 B1) (proj1 B2)) as [A' B'].
    split; [eapply map_all; eassumption|eapply well_trans; eassumption].
  - intros n ps c vs c1 f more r _ IH P _ IH2 N O C. destruct (IH O C) as [A B]. destruct (B _ _ eq_refl) as [B1 B2].
    destruct (IH2 (first_name _ _ _ B1 P) (every_drop _ _ 1 B1) (proj1 B2)) as [A' B'].
    split; [eapply filter_all; eassumption|eapply well_trans; eassumption].
  - intros n ps c vs c1 f more r _ IH P _ IH2 N O C. destruct (IH O C) as [A B]. destruct (B _ _ eq_refl) as [B1 B2].
    destruct (IH2 (first_name _ _ _ B1 P) (every_drop _ _ 1 B1) (proj1 B2)) as [A' B'].
    split; [eapply apply_all; eassumption|eapply well_trans; eassumption].
  - (* sort *) intros n ps c vs c1 nodes st ew es w items c2 sorted ns _ IH A P _ IH2 S AR N O C.
    destruct (IH O C) as [A1 B]. destruct (B _ _ eq_refl) as [V B2]. pose proof (key_macro_ok _ A V) as K.
    apply every_positionals in V. rewrite P in V. inversion V as [|? ? X _]; subst. apply every_list in X.
    destruct (IH2 K X (proj1 B2)) as [A' B']. destruct (B' _ _ eq_refl) as [MS B3]. use by_sort. destruct H as [FL US].
    rewrite (sort_order_same _ E') in S by exact FL.
    split; [eapply sort_list; try eassumption; eapply sorts_same; eassumption|].
    eapply well_trans; [exact B2|]. apply well_ok; [|exact B3].
    constructor; [|constructor]. apply every_list. apply (every_arranged _ _ _ _ AR).
    apply (every_perm _ nodes); [|exact X]. rewrite <- MS. apply Permutation_map. exact (sorts_perm _ _ _ _ S).
  - intros n ps c vs c1 nodes st ew es w items c2 q r _ IH A P _ IH2 S F N O C.
    destruct (IH O C) as [A1 B]. destruct (B _ _ eq_refl) as [V B2]. pose proof (key_macro_ok _ A V) as K.
    apply every_positionals in V. rewrite P in V. inversion V as [|? ? X _]; subst. apply every_list in X.
    destruct (IH2 K X (proj1 B2)) as [A' B']. use by_sort. destruct H as [FL US].
    rewrite (sort_order_same _ E') in S by exact FL.
    split; [eapply sort_disorder; try eassumption; eapply sorts_same; eassumption|eapply well_fails; eassumption].
  - intros n ps c vs c1 nodes st ew es w q r _ IH A P _ IH2 F N O C.
    destruct (IH O C) as [A1 B]. destruct (B _ _ eq_refl) as [V B2]. pose proof (key_macro_ok _ A V) as K.
    apply every_positionals in V. rewrite P in V. inversion V as [|? ? X _]; subst. apply every_list in X.
    destruct (IH2 K X (proj1 B2)) as [A' B']. split; [eapply sort_fails; eassumption|eapply well_fails; eassumption].
  - intros n ps c vs c1 v _ IH A P L N O C. destruct (IH O C) as [A1 B]. split; [eapply sort_other; eassumption|apply well_err].
  - (* clauses *) intros v c V O C. split; [constructor|]. apply well_ok; [constructor|apply kept_refl, C].
  - intros v pat body st ew es w cs c p c1 r _ IH NB _ IH2 V O C. inversion O as [|? ? O1 O2]; subst. apply every_list in O1.
    inversion O1; subst. destruct (IH H1 C) as [A B]. destruct (B _ _ eq_refl) as [B1 B2]. destruct (IH2 V O2 (proj1 B2)) as [A' B'].
    split; [eapply clauses_skip; eassumption|eapply well_trans; eassumption].
  - intros v pat body st ew es w cs c p c1 l q _ IH BL _ IH2 V O C. inversion O as [|? ? O1 O2]; subst. apply every_list in O1.
    inversion O1; subst. destruct (IH H1 C) as [A B]. destruct (B _ _ eq_refl) as [B1 B2]. inversion B1 as [|? ? H5 _]; subst.
    assert (D : okay_in (with_defs (assign l (k_defs c1)) c1)).
    { apply defs_assign; [|apply B2]. exact (proj1 (binds_syms ok_sym) _ _ _ BL H5 V). }
    destruct (IH2 H2 D) as [A' B']. split; [eapply clauses_take; eassumption|]. eapply well_trans; [exact B2|].
    eapply well_within; [apply B2|exact B'].
  - intros v pat body st ew es w cs c q r _ IH F V O C. inversion O as [|? ? O1 O2]; subst. apply every_list in O1.
    inversion O1; subst. destruct (IH H1 C) as [A B]. split; [eapply clauses_fails; eassumption|eapply well_fails; eassumption].
  - intros v pat body st ew es w cs c ps c1 _ IH L V O C. inversion O as [|? ? O1 O2]; subst. apply every_list in O1.
    inversion O1; subst. destruct (IH H1 C) as [A B]. split; [eapply clauses_patterns; eassumption|apply well_err].
  - intros v clause cs c L V O C. split; [eapply clauses_bad; eassumption|apply well_err].
  - (* rounds *) intros p body c PO BO IO C. split; [constructor|]. apply well_ok; [constructor|apply kept_refl, C].
  - intros p body i items c l xs c1 q BL _ IH _ IH2 PO BO IO C. inversion IO; subst.
    assert (D : okay_in (with_defs (assign l (k_defs c)) c)).
    { apply defs_assign; [|exact C]. exact (proj1 (binds_syms ok_sym) _ _ _ BL PO H1). }
    destruct (IH BO D) as [A B]. destruct (B _ _ eq_refl) as [B1 B2]. destruct (IH2 PO BO H2 (proj1 B2)) as [A' B'].
    split; [eapply rounds_round; eassumption|]. apply well_changed; [intros ns L; apply Forall_app; auto|].
    assert (K : kept c c1) by exact B2. eapply well_trans; [exact K|exact B'].
  - intros p body i items c l q r BL _ IH F PO BO IO C. inversion IO; subst.
    assert (D : okay_in (with_defs (assign l (k_defs c)) c)).
    { apply defs_assign; [|exact C]. exact (proj1 (binds_syms ok_sym) _ _ _ BL PO H1). }
    destruct (IH BO D) as [A B]. split; [eapply rounds_fails; eassumption|eapply well_fails; eassumption].
  - intros p body i items c k st MM PO BO IO C. split; [eapply rounds_mismatch; eassumption|apply well_err].
  - (* each *) intros name n drop c N O C. split; [constructor|]. apply well_ok; [constructor|apply kept_refl, C].
  - intros name n drop v vs c xs c1 q _ IH _ IH2 N O C. inversion O; subst.
    destruct (IH N (@List.Forall_cons _ _ _ _ H1 (List.Forall_nil _)) C) as [A B]. destruct (B _ _ eq_refl) as [B1 B2].
    destruct (IH2 N H2 (proj1 B2)) as [A' B']. split; [eapply each_next; eassumption|].
    apply well_changed; [|eapply well_trans; eassumption]. intros ns L. apply Forall_app. split; [|exact L]. destruct (drop xs); [constructor|exact B1].
  - intros name n drop v vs c q r _ IH F N O C. inversion O; subst.
    destruct (IH N (@List.Forall_cons _ _ _ _ H1 (List.Forall_nil _)) C) as [A B]. split; [eapply each_fails; eassumption|eapply well_fails; eassumption].
  - (* keys *) intros name n st c N O C. split; [constructor|]. intros items c' X. injection X as <- <-. split; [reflexivity|apply kept_refl, C].
  - intros name n st v vs c k a c1 items c2 _ IH A _ IH2 N O C. inversion O; subst.
    destruct (IH N (@List.Forall_cons _ _ _ _ H1 (List.Forall_nil _)) C) as [A1 B]. destruct (B _ _ eq_refl) as [_ B2].
    destruct (IH2 N H2 (proj1 B2)) as [A' B']. split; [eapply keys_next; eassumption|].
    intros items' c' X. injection X as <- <-. destruct (B' _ _ eq_refl) as [M1 B3]. cbn. rewrite M1. split; [reflexivity|]. eapply kept_trans; eassumption.
  - intros name n st v vs c k a c1 q r _ IH A _ IH2 F N O C. inversion O; subst.
    destruct (IH N (@List.Forall_cons _ _ _ _ H1 (List.Forall_nil _)) C) as [A1 B]. destruct (B _ _ eq_refl) as [_ B2].
    destruct (IH2 N H2 (proj1 B2)) as [A' B']. split; [eapply keys_later; eassumption|].
    intros items c' ->. destruct q; cbn in F; try contradiction; discriminate.
  - intros name n st v vs c k c1 _ IH A N O C. inversion O; subst.
    destruct (IH N (@List.Forall_cons _ _ _ _ H1 (List.Forall_nil _)) C) as [A1 B]. split; [eapply keys_other; eassumption|discriminate].
  - intros name n st v vs c ks c1 _ IH L N O C. inversion O; subst.
    destruct (IH N (@List.Forall_cons _ _ _ _ H1 (List.Forall_nil _)) C) as [A1 B]. split; [eapply keys_count; eassumption|discriminate].
  - intros name n st v vs c e _ IH N O C. inversion O; subst.
    destruct (IH N (@List.Forall_cons _ _ _ _ H1 (List.Forall_nil _)) C) as [A1 B]. split; [eapply keys_error; eassumption|discriminate].
  - intros name n st v vs c q r _ IH NE F N O C. inversion O; subst.
    destruct (IH N (@List.Forall_cons _ _ _ _ H1 (List.Forall_nil _)) C) as [A1 B]. split; [eapply keys_stops; eassumption|].
    intros items c' ->. destruct q; cbn in F; try contradiction; discriminate.
Qed.
End Rules.

(** ** Programs *)

Lemma same_sym E E' : same_but M E E' -> same_but M E' E.
Proof.
  intros S. constructor; [symmetry; apply S|..];
    [destruct (by_files _ _ _ S) | destruct (by_env _ _ _ S) | destruct (by_lambda _ _ _ S) | destruct (by_sort _ _ _ S)
    | destruct (by_zone _ _ _ S) | destruct (by_date _ _ _ S) | destruct (by_timestamp _ _ _ S) | destruct (by_format _ _ _ S)
    | destruct (by_markdown _ _ _ S) | destruct (by_yaml _ _ _ S) | destruct (by_toml _ _ _ S) | destruct (by_glob _ _ _ S)];
    clear S; (left; assumption) || (right; intuition congruence).
Qed.
Lemma reads_same E E' : same_but M E E' -> In (b "include") M \/ reads_text E -> In (b "include") M \/ reads_text E'.
Proof.
  intros S [H|H]; [auto|]. destruct (by_files _ _ _ S) as [I|[R _]]; [left; apply I; cbn; auto|right].
  intros p t X. rewrite <- R in X. exact (H _ _ X).
Qed.
Lemma confined_same E E' text : same_but M E E' -> confined M E text -> confined M E' text.
Proof.
  intros S [P F D]. pose proof (by_unescape _ _ _ S) as U. constructor.
  - rewrite <- U. exact P.
  - destruct F as [F|F]; [auto|]. destruct (by_files _ _ _ S) as [I|[R _]]; [left; apply I; cbn; auto|right].
    rewrite <- U, <- R. exact F.
  - destruct D as [D|D]; [auto|]. destruct (by_toml _ _ _ S) as [I|R]; [auto|right].
    unfold dates_are_dates. rewrite <- R. exact D.
Qed.

Lemma program_one E E' path text r : In (b "include") M \/ reads_text E -> utf8 text -> confined M E text -> same_but M E E' ->
  program_means E path text r -> program_means E' path text r /\
  forall ns c, r = Ok (ns, c) -> Forall (without M) ns /\ (In (b "log") M -> k_log c = []) /\ (In (b "include") M -> k_files c = [(path, text)]).
Proof.
  intros T U [P F D] S H. pose proof (by_unescape _ _ _ S) as UN. destruct H.
  - apply syntax_iff in H as H'; [|exact U]. pose proof (P _ H') as O.
    assert (O' : Forall (all_syms ok_sym) tree) by (revert O; apply Forall_impl; intros t; apply without_iff).
    destruct (proj1 (proj2 (means_same E E' T F D S)) _ _ _ H0 O') as [A B].
    { intros k m G. cbn in G. rewrite get_no_defs in G. discriminate. }
    split; [eapply program_tree; [rewrite <- UN; eassumption|exact A]|].
    intros ns c X. destruct (B _ _ X) as [B1 [_ [B2 B3]]]. split; [|split; assumption].
    revert B1. apply Forall_impl. intros t. apply without_iff.
  - split; [eapply program_syntax; [rewrite <- UN; eassumption|assumption]|].
    intros ns c ->. destruct q; cbn in *; try contradiction; discriminate.
Qed.
Theorem program_same E E' path text r : In (b "include") M \/ reads_text E -> utf8 text -> confined M E text -> same_but M E E' ->
  program_means E path text r <-> program_means E' path text r.
Proof.
  intros T U C S. split; intros H.
  - exact (proj1 (program_one E E' path text r T U C S H)).
  - exact (proj1 (program_one E' E path text r (reads_same _ _ S T) U (confined_same _ _ _ S C) (same_sym _ _ S) H)).
Qed.
End Withheld.
