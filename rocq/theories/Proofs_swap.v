(** * Proof of C76: definitions in another place *)

From Coq Require Import String List Ascii Bool Arith NArith ZArith Permutation Lia.
From Verif Require Import Text Utf8 Res Ast Env Scope State Numbers Data Sorting Paths Parser
  Spec_args Spec_expand Spec_builtin Spec_bind Spec_control Spec_sort Spec_data Spec_world Spec_errors Spec_scope Spec_place
  Spec_events Spec_final Spec_keep Spec_power Spec_dead Spec_swap Proofs_text Proofs_scope Proofs_args Proofs_simple Proofs_builtin Proofs_sort Proofs_bind
  Proofs_data Proofs_keep Proofs_events Proofs_place Proofs_final.
From Verif Require Proofs_power Proofs_dead.
From Verif Require Import Args Expander Spec_lang.
Import ListNotations.

Definition M : list bytes := b "symbol" :: b "namespace" :: importing.
Lemma M_withheld : withheld M.
Proof.
  split; [left; reflexivity|]. split; [vm_compute; intuition discriminate|]. intros m I. vm_compute in I. unfold reserved.
  repeat (destruct I as [<-|I]; [vm_compute; tauto|]). contradiction.
Qed.

(** ** Sequences *)

Lemma all_app E : forall ns ms c xs c1 q, means_all E ns c (Ok (xs, c1)) -> means_all E ms c1 q ->
  means_all E (ns ++ ms) c (changed (app xs) q).
Proof.
  induction ns as [|n ns IH]; intros ms c xs c1 q H1 H2; inversion H1 as [|? ? ? ys c2 q' R1 R2|? ? ? ? ? R1 F]; subst.
  - change ([] ++ ms) with ms. replace (changed (app []) q) with q; [exact H2|]. destruct q as [[? ?]| | | |]; reflexivity.
  - destruct q' as [[zs c3]| | | |]; try discriminate.
    match goal with Q : changed _ _ = Ok _ |- _ => injection Q as <- <- end.
    pose proof (IH _ _ _ _ _ R2 H2) as R. pose proof (means_cons _ _ _ _ _ _ _ R1 R) as R'.
    replace (changed (app (ys ++ zs)) q) with (changed (app ys) (changed (app zs) q)); [exact R'|].
    destruct q as [[? ?]| | | |]; cbn; rewrite ?app_assoc; reflexivity.
  - destruct q0; cbn in F; try contradiction; discriminate.
Qed.
Lemma all_app_fails E ms : forall ns c q (r : result), means_all E ns c q -> fails q r -> means_all E (ns ++ ms) c r.
Proof.
  induction ns as [|n ns IH]; intros c q r H F; inversion H as [|? ? ? ys c2 q' R1 R2|? ? ? q1 ? R1 F1]; subst.
  - contradiction.
  - assert (X : exists r', fails q' r' /\ changed (app ys) r' = r).
    { destruct q' as [[? ?]| | | |]; cbn in F |- *; try contradiction; subst; eexists; split; reflexivity. }
    destruct X as [r' [X <-]]. cbn. eapply means_cons; [exact R1|]. exact (IH _ _ _ R2 X).
  - cbn. assert (X : r = q) by (destruct q1, q as [[? ?]| | | |]; cbn in *; try contradiction; try discriminate; congruence). subst. eapply means_stop; eassumption.
Qed.
Lemma all_app_inv E ms : forall ns c r, means_all E (ns ++ ms) c r ->
  (exists xs c1 q, means_all E ns c (Ok (xs, c1)) /\ means_all E ms c1 q /\ r = changed (app xs) q) \/
  (exists q, means_all E ns c q /\ fails q r).
Proof.
  induction ns as [|n ns IH]; intros c r H; cbn in H.
  - left. exists [], c, r. split; [constructor|]. split; [exact H|]. destruct r as [[? ?]| | | |]; reflexivity.
  - inversion H as [|? ? ? ys c2 q' R1 R2|? ? ? q1 ? R1 F1]; subst.
    + destruct (IH _ _ R2) as [[xs [c1 [q [A [B ->]]]]]|[q [A F]]].
      * left. exists (ys ++ xs), c1, q. split; [exact (means_cons _ _ _ _ _ _ _ R1 A)|]. split; [exact B|].
        destruct q as [[? ?]| | | |]; cbn; rewrite ?app_assoc; reflexivity.
      * right. exists (changed (app ys) q). split; [eapply means_cons; eassumption|].
        destruct q as [[? ?]| | | |]; cbn in F |- *; try contradiction; subst; reflexivity.
    + right. exists r. split; [eapply means_stop; eassumption|]. destruct q1, r as [[? ?]| | | |]; cbn in *; try contradiction; try discriminate; auto.
Qed.

(** ** What stays as it is *)

Section Stay.
Variable k : bytes.
Notation K := (eq k).
Notation ok_sym := (Proofs_power.ok_sym M).
Notation S n := (Proofs_dead.src K n /\ all_syms ok_sym n).
Definition ss (l : list node) : Prop := Forall (Proofs_dead.src K) l /\ Forall (all_syms ok_sym) l.
Definition vs_ok (l : list node) : Prop := Forall (all_syms (Proofs_dead.okf K)) l /\ Forall (all_syms ok_sym) l.
(** The definitions of other names. *)
Definition others (d : scope) : Prop := forall j m, j <> k -> get j d = Some m ->
  Forall (all_syms ok_sym) (m_params m) /\ Forall (all_syms ok_sym) (m_body m).
Definition good (c : context) : Prop := Proofs_dead.gooddefs K (k_defs c) /\ others (k_defs c) /\ k_files c <> [].

Lemma vs_ss l : vs_ok l -> ss l.
Proof. intros [A B]. split; [apply Proofs_dead.fin_src_all, A|exact B]. Qed.
Lemma others_put name m d : (name <> k -> Forall (all_syms ok_sym) (m_params m) /\ Forall (all_syms ok_sym) (m_body m)) ->
  others d -> others (put name m d).
Proof.
  intros P D j m' N G. destruct (beq j name) eqn:J.
  - apply beq_eq in J. subst. rewrite get_put_same in G. injection G as <-. auto.
  - apply beq_neq in J. rewrite get_put_other in G by exact J. exact (D _ _ N G).
Qed.
Lemma others_assign l : forall d, assigns_syms ok_sym l -> others d -> others (assign l d).
Proof.
  induction l as [|[j v] l IH]; intros d A D; [exact D|]. inversion A; subst. cbn.
  apply IH; [assumption|]. apply others_put; [|exact D]. intros _. split; [constructor|assumption].
Qed.
Lemma good_self c : good c -> Proofs_dead.pair K c c.
Proof.
  intros [A [_ F]]. split; [|exact A]. constructor; [intros j _; reflexivity|reflexivity|].
  destruct (k_files c) as [|[p t] l]; [contradiction|constructor].
Qed.
(** The same context, with a harmless definition of [k]. *)
Definition harmless (c : context) : context := declare k (variable []) c.
Lemma good_pair c : good c -> Proofs_dead.pair K c (harmless c).
Proof.
  intros [A [_ F]]. split; [|exact A]. constructor; [|reflexivity|].
  - intros j N. cbn. rewrite get_put_other; [reflexivity|congruence].
  - cbn. destruct (k_files c) as [|[p t] l]; [contradiction|constructor].
Qed.
Lemma harmless_ok c : good c -> Proofs_power.okay_in M (harmless c).
Proof.
  intros [_ [O _]] j m G. cbn in G. destruct (beq j k) eqn:J.
  - apply beq_eq in J. subst. rewrite get_put_same in G. injection G as <-. split; constructor.
  - apply beq_neq in J. rewrite get_put_other in G by exact J. exact (O _ _ J G).
Qed.

Section Rules.
Variable E : env.
Hypothesis TEXT : reads_text E.
Hypothesis FILES : unrelated_files k E.
Hypothesis DATES : dates_are_dates E.
Hypothesis CHOICE : choosable K E.

Lemma files_dead : unmentioned_in_files K E.
Proof. intros p t id tree R P. pose proof (FILES _ _ _ _ R P) as F. revert F. apply Forall_impl. intros n [H _]. exact H. Qed.
Lemma roundabout_namespace : roundabout K (b "namespace") /\ roundabout K (b "%namespace").
Proof.
  assert (X : exists prefix j, k = j /\ k <> prefix ++ j).
  { exists (b "/"), k. split; [reflexivity|]. intros Q. apply (f_equal (@length ascii)) in Q. rewrite app_length in Q. cbn in Q. lia. }
  split; right; right; right; auto.
Qed.
Lemma unrelated_iff n : unrelated k n -> S n.
Proof.
  intros [U W]. split; [apply Proofs_dead.unmentioned_iff, U|]. apply Proofs_power.without_iff. intros m I. destruct U as [_ _ U].
  destruct I as [<-|[<-|I]].
  - intros [I|I]; revert I; apply U; [left|right; left]; reflexivity.
  - intros [I|I]; revert I; apply U; apply roundabout_namespace.
  - apply W, I.
Qed.
Lemma unrelated_all l : Forall (unrelated k) l -> ss l.
Proof. intros H. split; revert H; apply Forall_impl; intros n H; apply unrelated_iff in H; apply H. Qed.
Lemma files_power : In (b "include") M \/
    forall path text id tree, e_read E path = Some text -> parse (e_unescape E) id text = Ok tree -> Forall (without M) tree.
Proof.
  right. intros p t id tree R P. pose proof (FILES _ _ _ _ R P) as F. revert F. apply Forall_impl. intros n H.
  apply Proofs_power.without_iff, unrelated_iff, H.
Qed.
Lemma same_self M0 : same_but M0 E E.
Proof. constructor; auto. Qed.

Definition SIM := Proofs_dead.means_sim K E TEXT files_dead DATES CHOICE.
Definition SAME := Proofs_power.means_same M M_withheld E E (or_intror TEXT) files_power (or_intror DATES) (same_self M).

(** What nodes give in a good context. *)
Definition fine (c : context) (r : result) : Prop := forall vs c1, r = Ok (vs, c1) -> vs_ok vs /\ good c1.
Lemma fine_by c r r' : Proofs_dead.sim K r r' -> Proofs_power.well M (harmless c) r' -> fine c r.
Proof.
  intros X W vs c1 ->. destruct X as [c2 [-> [V [[SD _ F] P]]]]. destruct (W _ _ eq_refl) as [W1 [W2 _]].
  split; [split; assumption|]. split; [exact P|]. split; [|inversion F; discriminate].
  intros j m N G. apply (W2 j). rewrite <- SD; [exact G|congruence].
Qed.
Lemma node_fine n c r : means E n c r -> S n -> good c -> fine c r.
Proof.
  intros H [A B] G. destruct (proj1 SIM _ _ _ H A _ (good_pair _ G)) as [r' [H' X]].
  apply (fine_by _ _ _ X). exact (proj2 (proj1 SAME _ _ _ H' B (harmless_ok _ G))).
Qed.
Lemma nodes_fine ns c r : means_all E ns c r -> ss ns -> good c -> fine c r.
Proof.
  intros H [A B] G. destruct (proj1 (proj2 SIM) _ _ _ H A _ (good_pair _ G)) as [r' [H' X]].
  apply (fine_by _ _ _ X). exact (proj2 (proj1 (proj2 SAME) _ _ _ H' B (harmless_ok _ G))).
Qed.
Definition called (name : bytes) (ps : list node) : Prop :=
  Proofs_dead.callable K name /\ Proofs_dead.askable K name ps /\ ~ In name M /\ ss ps.
Lemma call_fine name n ps c r : runs E name n ps c r -> called name ps -> good c -> fine c r.
Proof.
  intros H [C [A [I [B D]]]] G.
  destruct (proj1 (proj2 (proj2 SIM)) _ _ _ _ _ H (conj C (conj A B)) _ (good_pair _ G)) as [r' [H' X]].
  apply (fine_by _ _ _ X). exact (proj2 (proj1 (proj2 (proj2 SAME)) _ _ _ _ _ H' I D (harmless_ok _ G))).
Qed.

(** The definition of [k] and the main file stay. *)
Definition head (c : context) := hd_error (k_files c).
Definition stays (c c1 : context) : Prop := get k (k_defs c1) = get k (k_defs c) /\ head c1 = head c.
Definition steady (c : context) (r : result) : Prop := forall vs c1, r = Ok (vs, c1) -> stays c c1.
Definition headed (c : context) (r : result) : Prop := forall vs c1, r = Ok (vs, c1) -> head c1 = head c.

Lemma stays_refl c : stays c c. Proof. split; reflexivity. Qed.
Lemma stays_trans c1 c2 c3 : stays c1 c2 -> stays c2 c3 -> stays c1 c3.
Proof. intros [A B] [C D]. split; congruence. Qed.
Lemma steady_refl c vs : steady c (Ok (vs, c)).
Proof. intros ? ? X. injection X as <- <-. apply stays_refl. Qed.
Lemma steady_trans c c1 r : stays c c1 -> steady c1 r -> steady c r.
Proof. intros A B vs c2 X. exact (stays_trans _ _ _ A (B _ _ X)). Qed.
Lemma steady_fails {A} c (q : res A) r : fails q r -> steady c r.
Proof. intros F vs c1 ->. destruct q; cbn in F; try contradiction; discriminate. Qed.
Lemma steady_err c e : steady c (Err e). Proof. intros ? ? X. discriminate X. Qed.
Lemma steady_panic c e : steady c (Panic e). Proof. intros ? ? X. discriminate X. Qed.
Lemma steady_changed c f r : steady c r -> steady c (changed f r).
Proof. intros H vs c1 X. destruct r as [[? ?]| | | |]; try discriminate X. injection X as <- <-. exact (H _ _ eq_refl). Qed.
Lemma steady_refused c rs n vs (r : result) : refused rs n vs r -> steady c r.
Proof. intros [j [st [-> _]]]. apply steady_err. Qed.
Lemma headed_changed c f r : headed c r -> headed c (changed f r).
Proof. intros H vs c1 X. destruct r as [[? ?]| | | |]; try discriminate X. injection X as <- <-. exact (H _ _ eq_refl). Qed.
Lemma headed_fails {A} c (q : res A) r : fails q r -> headed c r.
Proof. intros F vs c1 ->. destruct q; cbn in F; try contradiction; discriminate. Qed.
Lemma steady_headed c r : steady c r -> headed c r.
Proof. intros H vs c1 X. exact (proj2 (H _ _ X)). Qed.
Lemma steady_within c1 d q : headed (with_defs d c1) q -> steady c1 (within c1 q).
Proof.
  intros H vs c2 X. destruct q as [[ns c3]| | | |]; try discriminate X. injection X as <- <-. split; [reflexivity|].
  exact (H _ _ eq_refl).
Qed.

Lemma values_steady name meaning n vs c r :
  In (name, meaning) on_values -> ~ In name M -> meaning E n vs c r -> steady c r.
Proof.
  intros I N. unfold on_values in I. cbn [In] in I.
  repeat match goal with H : _ \/ _ |- _ => destruct H as [H|H] end; try contradiction;
    injection I as <- <-; intros H; try (exfalso; apply N; vm_compute; tauto).
  all: try (destruct H; first [apply steady_refl | apply steady_err | apply steady_panic | eapply steady_fails; eassumption]).
  - destruct H as [pat t j up r A H]. destruct H; first [apply steady_refl | apply steady_err | apply steady_panic].
  - destruct H; [|apply steady_err]. intros ? ? X. injection X as <- <-. split; reflexivity.
Qed.


Lemma ss_cons n l : ss (n :: l) -> S n /\ ss l.
Proof. intros [A B]. inversion A; inversion B; subst. split; split; assumption. Qed.
Lemma ss_list l st ew es w : S (Lst l st ew es w) -> ss l.
Proof. intros [A B]. split; [exact (Proofs_dead.src_list _ _ _ _ _ _ A)|apply every_list in B; exact B]. Qed.
Lemma ss_positionals l : ss l -> ss (positionals l).
Proof. intros [A B]. split; [apply Proofs_dead.p_positionals, A|apply every_positionals, B]. Qed.
Lemma ss_drop l i : ss l -> ss (drop_positionals i l).
Proof. intros [A B]. split; [apply Proofs_dead.p_drop, A|apply every_drop, B]. Qed.
Lemma vs_cons v l : vs_ok (v :: l) -> vs_ok [v] /\ vs_ok l.
Proof. intros [A B]. inversion A; inversion B; subst. split; split; auto. Qed.
Lemma vs_one v : vs_ok [v] -> S v.
Proof. intros H. apply vs_ss, ss_cons in H. apply H. Qed.
Lemma vs_positionals l : vs_ok l -> vs_ok (positionals l).
Proof. intros [A B]. split; apply every_positionals; assumption. Qed.
Lemma vs_drop l i : vs_ok l -> vs_ok (drop_positionals i l).
Proof. intros [A B]. split; apply every_drop; assumption. Qed.
Lemma vs_list l st ew es w : vs_ok [Lst l st ew es w] -> vs_ok l.
Proof. intros [A B]. inversion A as [|? ? A1 _]; inversion B as [|? ? B1 _]; subst. apply every_list in A1. apply every_list in B1. split; assumption. Qed.

Definition named (name : bytes) : Prop := Proofs_dead.named_ok K name /\ ~ In name M.
Lemma named_called name ps : named name -> ss ps -> called name ps.
Proof. intros [A B] O. split; [apply A|]. split; [apply Proofs_dead.named_askable, A|]. split; assumption. Qed.
Lemma first_called f more vs : vs_ok vs -> positionals vs = Sym f :: more -> named (a_val f).
Proof.
  intros [A B] P. split; [exact (Proofs_dead.first_named _ _ _ _ A P)|exact (Proofs_power.first_name _ _ _ _ B P)].
Qed.
Lemma key_called vs : accepted rules_sort vs -> vs_ok vs -> named (key_macro vs).
Proof.
  intros A [V W]. split; [exact (Proofs_dead.key_named _ _ CHOICE _ A V)|exact (Proofs_power.key_macro_ok _ M_withheld _ A W)].
Qed.
Lemma call_called name args n : is_call name args n -> S n -> called name (received args).
Proof.
  intros C [A B]. destruct (Proofs_dead.src_call _ _ _ _ C A) as [X [Y Z]]. destruct (Proofs_power.name_ok _ _ _ _ C B) as [U W].
  split; [exact X|]. split; [exact Y|]. split; [exact U|]. split; [exact Z|apply every_received, W].
Qed.

Lemma good_defs c name m : good c -> name <> k -> get name (k_defs c) = Some m -> ss (m_params m) /\ ss (m_body m).
Proof.
  intros [G [O _]] N Q. assert (N' : k <> name) by congruence. destruct (G _ _ N' Q) as [A B]. destruct (O _ _ N Q) as [A' B']. split; split; assumption.
Qed.
Definition given (l : list (bytes * list node)) : Prop := Proofs_dead.p_assigns (Proofs_dead.src K) l /\ assigns_syms ok_sym l.
Lemma good_assign c l : good c -> given l -> good (with_defs (assign l (k_defs c)) c).
Proof.
  intros G [L1 L2]. split; [|split; [|apply G]].
  - exact (proj2 (Proofs_dead.pair_assign _ _ _ _ (good_self _ G) L1)).
  - apply others_assign; [exact L2|apply G].
Qed.
Lemma given_list ps vs l : binds_list ps vs l -> ss ps -> ss vs -> given l.
Proof.
  intros BL [A B] [C D]. split.
  - exact (proj1 (proj2 (Proofs_dead.p_binds _ (Proofs_dead.src_list K) (Proofs_dead.src_attr K))) _ _ _ BL A C).
  - exact (proj1 (proj2 (binds_syms ok_sym)) _ _ _ BL B D).
Qed.
Lemma given_one p v l : binds p v l -> S p -> S v -> given l.
Proof.
  intros BL [A B] [C D]. split.
  - exact (proj1 (Proofs_dead.p_binds _ (Proofs_dead.src_list K) (Proofs_dead.src_attr K)) _ _ _ BL A C).
  - exact (proj1 (binds_syms ok_sym) _ _ _ BL B D).
Qed.
Lemma good_reading c path text : good c -> good (reading path text c).
Proof. intros [A [B F]]. split; [exact A|]. split; [exact B|]. cbn. destruct (k_files c); discriminate. Qed.
Lemma stays_reading c path text : good c -> stays c (reading path text c).
Proof. intros [_ [_ F]]. split; [reflexivity|]. unfold head. cbn. destruct (k_files c); [contradiction|reflexivity]. Qed.
Lemma stays_declare c name m : name <> k -> stays c (declare name m c).
Proof. intros N. split; [|reflexivity]. cbn. apply get_put_other. congruence. Qed.
Lemma sym_other a : S (Sym a) -> a_val a <> k.
Proof. intros [H _]. apply Proofs_dead.src_sym in H. destruct H as [H _]. congruence. Qed.

Ltac nothing := first [apply steady_refl | apply steady_err | apply steady_panic | eapply steady_fails; eassumption | eapply steady_refused; eassumption].
Tactic Notation "after" constr(H) constr(O) constr(C) "as" ident(V) ident(G) :=
  destruct (nodes_fine _ _ _ H O C _ _ eq_refl) as [V G].
Tactic Notation "after1" constr(H) constr(O) constr(C) "as" ident(V) ident(G) :=
  destruct (node_fine _ _ _ H O C _ _ eq_refl) as [V G].
Lemma means_steady :
  (forall n c r, means E n c r -> S n -> good c -> steady c r) /\
  (forall ns c r, means_all E ns c r -> ss ns -> good c -> steady c r) /\
  (forall name n ps c r, runs E name n ps c r -> called name ps -> good c -> steady c r) /\
  (forall v cs c r, clauses E v cs c r -> vs_ok [v] -> ss cs -> good c -> steady c r) /\
  (forall p body items c r, rounds E p body items c r -> S p -> ss body -> vs_ok items -> good c -> headed c r) /\
  (forall name n drop vs c r, each E name n drop vs c r -> named name -> vs_ok vs -> good c -> steady c r) /\
  (forall name n st vs c r, keys E name n st vs c r -> named name -> vs_ok vs -> good c ->
     forall items c', r = Ok (items, c') -> stays c c').
Proof.
  assert (IND : 
  (forall n c r, means E n c r -> means E n c r /\ (S n -> good c -> steady c r)) /\
  (forall ns c r, means_all E ns c r -> means_all E ns c r /\ (ss ns -> good c -> steady c r)) /\
  (forall name n ps c r, runs E name n ps c r -> runs E name n ps c r /\ (called name ps -> good c -> steady c r)) /\
  (forall v cs c r, clauses E v cs c r -> vs_ok [v] -> ss cs -> good c -> steady c r) /\
  (forall p body items c r, rounds E p body items c r -> S p -> ss body -> vs_ok items -> good c -> headed c r) /\
  (forall name n drop vs c r, each E name n drop vs c r -> named name -> vs_ok vs -> good c -> steady c r) /\
  (forall name n st vs c r, keys E name n st vs c r -> named name -> vs_ok vs -> good c ->
     forall items c', r = Ok (items, c') -> stays c c')).
  2: { destruct IND as [A [B [C [D [F [G H]]]]]]. split; [intros; eapply A; eassumption|]. split; [intros; eapply B; eassumption|].
       split; [intros; eapply C; eassumption|]. auto. }
  apply (means_mutind E
    (fun n c r => means E n c r /\ (S n -> good c -> steady c r))
    (fun ns c r => means_all E ns c r /\ (ss ns -> good c -> steady c r))
    (fun name n ps c r => runs E name n ps c r /\ (called name ps -> good c -> steady c r))
    (fun v cs c r => vs_ok [v] -> ss cs -> good c -> steady c r)
    (fun p body items c r => S p -> ss body -> vs_ok items -> good c -> headed c r)
    (fun name n drop vs c r => named name -> vs_ok vs -> good c -> steady c r)
    (fun name n st vs c r => named name -> vs_ok vs -> good c ->
     forall items c', r = Ok (items, c') -> stays c c')).
  - (* atoms *) intros n a c A Y. split; [econstructor; eassumption|]. intros O C. nothing.
  - intros a c N. split; [constructor; assumption|]. intros O C. nothing.
  - intros a name body c q N G H [_ IH]. split; [eapply means_variable; eassumption|]. intros O C. apply steady_changed, IH; [|exact C].
    assert (NK : name <> k).
    { intros ->. apply proj1, Proofs_dead.src_sym in O. destruct O as [_ [O _]]. exact (O _ eq_refl N). }
    apply (good_defs _ _ _ C NK G).
  - intros a name c N G. split; [eapply means_undefined; eassumption|]. intros O C. nothing.
  - intros n name args c r Q H [_ IH]. split; [eapply means_call; eassumption|]. intros O C. exact (IH (call_called _ _ _ Q O) C).
  - intros ns st ew es w c q N H [_ IH]. split; [eapply means_list; eassumption|]. intros O C. apply steady_changed. exact (IH (ss_list _ _ _ _ _ O) C).
  - intros k0 v st w c x xs c1 H [_ IH]. split; [eapply means_attr; eassumption|]. intros [O1 O2] C vs c2 X. injection X as <- <-.
    refine (IH (conj _ O2) C _ _ eq_refl). exact (Proofs_dead.src_attr _ _ _ _ _ O1).
  - intros k0 v st w c c1 H _. split; [eapply means_attr_nothing; eassumption|]. intros O C. nothing.
  - intros k0 v st w c q r H _ F. split; [eapply means_attr_fails; eassumption|]. intros O C. nothing.
  - (* nodes *) intros c. split; [constructor|]. intros O C. nothing.
  - intros n ns c xs c1 q H [_ IH1] H2 [_ IH2]. split; [eapply means_cons; eassumption|]. intros O C. apply ss_cons in O as [O1 O2].
    after1 H O1 C as V G. apply steady_changed. eapply steady_trans; [exact (IH1 O1 C _ _ eq_refl)|exact (IH2 O2 G)].
  - intros n ns c q r H _ F. split; [eapply means_stop; eassumption|]. intros O C. nothing.
  - (* calls *) intros name meaning n ps c vs c1 r I H [_ IH] MN. split; [eapply runs_values; eassumption|]. intros [_ [_ [N O]]] C.
    eapply steady_trans; [exact (IH O C _ _ eq_refl)|]. eapply values_steady; eassumption.
  - intros name n ps c q r EF H _ F. split; [eapply runs_fails; eassumption|]. intros O C. nothing.
  - intros name rs n ps c vs c1 r I H _ R. split; [eapply runs_refused; eassumption|]. intros O C. nothing.
  - intros name n ps c vs c1 m l q R H [_ IH] G BL H2 [_ IH2]. split; [eapply runs_body; eassumption|]. intros [N [_ [_ O]]] C.
    after H O C as V G1. assert (NK : name <> k) by (destruct N as [N _]; congruence). destruct (good_defs _ _ _ G1 NK G) as [MP MB].
    eapply steady_trans; [exact (IH O C _ _ eq_refl)|]. apply steady_within with (d := assign l (k_defs c1)). apply steady_headed, IH2; [exact MB|].
    apply good_assign; [exact G1|]. exact (given_list _ _ _ BL MP (vs_ss _ V)).
  - intros name n ps c vs c1 m k0 st R H _ G MM. split; [eapply runs_mismatch; eassumption|]. intros O C. nothing.
  - intros name n ps c vs c1 R H _ G. split; [eapply runs_unknown; eassumption|]. intros O C. nothing.
  - (* define *) intros n a body c vs c1 H [_ IH]. split; [eapply define_variable; eassumption|]. intros [_ [_ [_ O]]] C. apply ss_cons in O as [O1 O2].
    eapply steady_trans; [exact (IH O2 C _ _ eq_refl)|]. intros ? ? X. injection X as <- <-. apply stays_declare, sym_other, O1.
  - intros n a body c q r H _ F. split; [eapply define_fails; eassumption|]. intros O C. nothing.
  - intros n a params st ew es w body c R. split; [eapply define_macro; eassumption|]. intros [_ [_ [_ O]]] C. apply ss_cons in O as [O1 O2].
    apply ss_list, ss_cons in O1 as [O1 _]. intros ? ? X. injection X as <- <-. apply stays_declare, sym_other, O1.
  - intros n a params st ew es w body c p X. split; [eapply define_excess; eassumption|]. intros O C. nothing.
  - intros n hd body c bad X. split; [eapply define_head; eassumption|]. intros O C. nothing.
  - intros n c. split; [apply define_nothing|]. intros O C. nothing.
  - (* lambda *) intros n ps c hd more params PO L R. split; [eapply lambda_made; eassumption|]. intros O C ? ? X. injection X as <- <-.
    apply stays_declare. destruct (Proofs_dead.lambda_okf _ _ CHOICE c (node_site n)) as [[X _] _]. congruence.
  - intros n ps c hd more params p PO L X. split; [eapply lambda_excess; eassumption|]. intros O C. nothing.
  - intros n ps c hd more PO Y L. split; [eapply lambda_head; eassumption|]. intros O C. nothing.
  - intros n ps c r R. split; [eapply lambda_refused; eassumption|]. intros O C. nothing.
  - (* match *) intros n e cs c v c1 r H [_ IH] H2 IH2. split; [eapply match_value; eassumption|]. intros [_ [_ [_ O]]] C. apply ss_cons in O as [O1 O2].
    after1 H O1 C as V G. eapply steady_trans; [exact (IH O1 C _ _ eq_refl)|exact (IH2 V O2 G)].
  - intros n e cs c q r H _ F. split; [eapply match_fails; eassumption|]. intros O C. nothing.
  - intros n e cs c vs c1 H _ L. split; [eapply match_values; eassumption|]. intros O C. nothing.
  - intros n c. split; [apply match_nothing|]. intros O C. nothing.
  - (* ifdef *) intros n cond a yes no c q L A G H [_ IH]. split; [eapply ifdef_yes; eassumption|]. intros [_ [_ [_ O]]] C.
    apply ss_cons in O as [_ O]. apply ss_cons in O as [O _]. apply steady_changed. exact (IH O C).
  - intros n cond a yes no c q A G H [_ IH]. split; [eapply ifdef_no; eassumption|]. intros [_ [_ [_ O]]] C.
    apply ss_cons in O as [_ O]. apply ss_cons in O as [_ O]. apply ss_cons in O as [O _]. apply steady_changed. exact (IH O C).
  - intros n cond a yes c A G. split; [eapply ifdef_not; eassumption|]. intros O C. nothing.
  - intros n cond yes no c L A. split; [eapply ifdef_name; eassumption|]. intros O C. nothing.
  - intros n ps c L L'. split; [eapply ifdef_count; eassumption|]. intros O C. nothing.
  - (* include *) intros n ps c v a c1 path text tree q H [_ IH] A F Y H2 [_ IH2]. split; [eapply include_file; eassumption|]. intros [_ [_ [_ O]]] C.
    after H O C as V G. assert (OT : ss tree).
    { destruct F as [before [rest [_ [_ R]]]]. apply syntax_iff in Y; [|exact (TEXT _ _ R)].
      apply unrelated_all. exact (FILES _ _ _ _ R Y). }
    apply steady_changed. eapply steady_trans; [exact (IH O C _ _ eq_refl)|]. eapply steady_trans; [apply stays_reading, G|].
    exact (IH2 OT (good_reading _ _ _ G)).
  - intros n ps c v a c1 path text e H _ A F Y. split; [eapply include_syntax; eassumption|]. intros O C. nothing.
  - intros n ps c v a c1 path text q r H _ A F Y NE X. split; [eapply include_stops; eassumption|]. intros O C. nothing.
  - intros n ps c v a c1 H _ A F. split; [eapply include_missing; eassumption|]. intros O C. nothing.
  - intros n ps c v c1 H _ A. split; [eapply include_other; eassumption|]. intros O C. nothing.
  - intros n ps c vs c1 H _ A. split; [eapply include_count; eassumption|]. intros O C. nothing.
  - (* namespace *) intros n ps c name a rest c1 d H _ A OP I. split; [eapply namespace_ok; eassumption|]. intros [_ [_ [N _]]] C.
    exfalso. apply N. vm_compute. tauto.
  - intros n ps c name a rest c1 st H _ A OP. split; [eapply namespace_option; eassumption|]. intros O C. nothing.
  - intros n ps c vs c1 H _ A. split; [eapply namespace_name; eassumption|]. intros O C. nothing.
  - (* for *) intros n ps c p i items st ew es w more vs c1 q PO I H [_ IH] H2 IH2. split; [eapply for_loop; eassumption|]. intros [_ [_ [_ O]]] C.
    pose proof (ss_drop _ 3 O) as D. apply ss_positionals in O. rewrite PO in O. apply ss_cons in O as [O1 O2].
    apply ss_cons in O2 as [_ O3]. apply ss_cons in O3 as [O4 _]. apply ss_list in O4. after H O4 C as V G.
    eapply steady_trans; [exact (IH O4 C _ _ eq_refl)|]. apply steady_within with (d := k_defs c1). exact (IH2 O1 D V G).
  - intros n ps c p i items st ew es w more q r PO I H _ F. split; [eapply for_fails; eassumption|]. intros O C. nothing.
  - intros n ps c r R. split; [eapply for_refused; eassumption|]. intros O C. nothing.
  - (* map *) intros n ps c vs c1 f more r H [_ IH] PO H2 IH2. split; [eapply map_all; eassumption|]. intros [_ [_ [_ O]]] C.
    after H O C as V G. eapply steady_trans; [exact (IH O C _ _ eq_refl)|]. exact (IH2 (first_called _ _ _ V PO) (vs_drop _ 1 V) G).
  - intros n ps c vs c1 f more r H [_ IH] PO H2 IH2. split; [eapply filter_all; eassumption|]. intros [_ [_ [_ O]]] C.
    after H O C as V G. eapply steady_trans; [exact (IH O C _ _ eq_refl)|]. exact (IH2 (first_called _ _ _ V PO) (vs_drop _ 1 V) G).
  - intros n ps c vs c1 f more r H [_ IH] PO H2 [_ IH2]. split; [eapply apply_all; eassumption|]. intros [_ [_ [_ O]]] C.
    after H O C as V G. eapply steady_trans; [exact (IH O C _ _ eq_refl)|].
    exact (IH2 (named_called _ _ (first_called _ _ _ V PO) (vs_ss _ (vs_drop _ 1 V))) G).
  - (* sort *) intros n ps c vs c1 nodes st ew es w items c2 sorted ns H [_ IH] A PO H2 IH2 Y AR. split; [eapply sort_list; eassumption|]. intros [_ [_ [_ O]]] C.
    after H O C as V G. eapply steady_trans; [exact (IH O C _ _ eq_refl)|]. intros ? ? X. injection X as <- <-.
    pose proof (key_called _ A V) as NO. apply vs_positionals in V. rewrite PO in V. apply vs_list in V.
    exact (IH2 NO V G _ _ eq_refl).
  - intros n ps c vs c1 nodes st ew es w items c2 q r H _ A PO H2 IH2 Y F. split; [eapply sort_disorder; eassumption|]. intros O C. nothing.
  - intros n ps c vs c1 nodes st ew es w q r H _ A PO H2 IH2 F. split; [eapply sort_fails; eassumption|]. intros O C. nothing.
  - intros n ps c vs c1 v H _ A PO L. split; [eapply sort_other; eassumption|]. intros O C. nothing.
  - (* clauses *) intros v c V O C. nothing.
  - intros v pat body st ew es w cs c p c1 r H [_ IH] NB _ IH2 V O C. apply ss_cons in O as [O1 O2]. apply ss_list, ss_cons in O1 as [O1 O3].
    after1 H O1 C as W G. eapply steady_trans; [exact (IH O1 C _ _ eq_refl)|exact (IH2 V O2 G)].
  - intros v pat body st ew es w cs c p c1 l q H [_ IH] BL H2 [_ IH2] V O C. apply ss_cons in O as [O1 O2]. apply ss_list, ss_cons in O1 as [O1 O3].
    after1 H O1 C as W G. eapply steady_trans; [exact (IH O1 C _ _ eq_refl)|]. apply steady_within with (d := assign l (k_defs c1)).
    apply steady_headed, IH2; [exact O3|]. apply good_assign; [exact G|]. exact (given_one _ _ _ BL (vs_one _ W) (vs_one _ V)).
  - intros v pat body st ew es w cs c q r H _ F V O C. nothing.
  - intros v pat body st ew es w cs c ps c1 H _ L V O C. nothing.
  - intros v clause cs c L V O C. nothing.
  - (* rounds *) intros p body c PO BO IO C. apply steady_headed. nothing.
  - intros p body i items c l xs c1 q BL H [_ IH] _ IH2 PO BO IO C. apply vs_cons in IO as [I1 I2].
    pose proof (good_assign _ _ C (given_one _ _ _ BL PO (vs_one _ I1))) as G. after H BO G as V G2.
    apply headed_changed. intros ? ? X. rewrite (IH2 PO BO I2 G2 _ _ X). destruct (IH BO G _ _ eq_refl) as [_ Y]. exact Y.
  - intros p body i items c l q r BL H _ F PO BO IO C. eapply headed_fails; eassumption.
  - intros p body i items c k0 st MM PO BO IO C. apply steady_headed. nothing.
  - (* each *) intros name n drop c N O C. nothing.
  - intros name n drop v vs c xs c1 q H [_ IH] _ IH2 N O C. apply vs_cons in O as [O1 O2]. pose proof (named_called _ _ N (vs_ss _ O1)) as CA.
    destruct (call_fine _ _ _ _ _ H CA C _ _ eq_refl) as [V G]. apply steady_changed. eapply steady_trans; [exact (IH CA C _ _ eq_refl)|exact (IH2 N O2 G)].
  - intros name n drop v vs c q r H _ F N O C. nothing.
  - (* keys *) intros name n st c N O C items c' X. injection X as <- <-. apply stays_refl.
  - intros name n st v vs c k0 a c1 items c2 H [_ IH] A _ IH2 N O C items' c' X. injection X as <- <-.
    apply vs_cons in O as [O1 O2]. pose proof (named_called _ _ N (vs_ss _ O1)) as CA.
    destruct (call_fine _ _ _ _ _ H CA C _ _ eq_refl) as [V G]. eapply stays_trans; [exact (IH CA C _ _ eq_refl)|exact (IH2 N O2 G _ _ eq_refl)].
  - intros name n st v vs c k0 a c1 q r H _ A _ IH2 F N O C items c' ->. destruct q; cbn in F; try contradiction; discriminate.
  - intros. discriminate.
  - intros. discriminate.
  - intros. discriminate.
  - intros name n st v vs c q r H _ NE F N O C items c' ->. destruct q; cbn in F; try contradiction; discriminate.
Qed.

(** ** Moving *)

Lemma good_declared c m : good c -> good (declare k m c).
Proof.
  intros [A [B F]]. split; [|split; [|exact F]].
  - apply Proofs_dead.good_put; [|exact A]. intros N. contradiction.
  - apply others_put; [|exact B]. intros N. contradiction.
Qed.
Lemma alone D c m r : means E D c (Ok ([], declare k m c)) -> (forall q, means E D c q -> q = Ok ([], declare k m c)) ->
  forall ns, means_all E (D :: ns) c r <-> means_all E ns (declare k m c) r.
Proof.
  assert (X : forall q : result, changed (app []) q = q) by (intros [[? ?]| | | |]; reflexivity).
  intros H U ns. split.
  - intros R. inversion R as [|? ? ? xs c1 q R1 R2|? ? ? q ? R1 F]; subst.
    + apply U in R1. injection R1 as -> ->. rewrite X. exact R2.
    + apply U in R1. subst. contradiction.
  - intros R. rewrite <- (X r). eapply means_cons; eassumption.
Qed.
Lemma same_place ns c m q : ss ns -> good c -> means_all E ns c q ->
  exists q', means_all E ns (declare k m c) q' /\
    match q with Ok (vs, c1) => q' = Ok (vs, declare k m c1) | _ => q' = q end.
Proof.
  intros O G H. assert (P : Proofs_dead.pair K c (declare k m c)).
  { apply Proofs_dead.pair_sym, Proofs_dead.pair_declared; [reflexivity|apply good_self, G]. }
  destruct (proj1 (proj2 SIM) _ _ _ H (proj1 O) _ P) as [q' [H' X]]. exists q'. split; [exact H'|].
  destruct q as [[vs c1]| | | |]; try (cbn in X; try contradiction; exact X).
  destruct X as [c2 [-> [V [[SD SL SF] _]]]]. f_equal. f_equal.
  pose proof (proj1 (proj2 means_steady) _ _ _ H O G _ _ eq_refl) as [_ F1].
  pose proof (proj1 (proj2 means_steady) _ _ _ H' O (good_declared _ m G) _ _ eq_refl) as [K2 F2].
  destruct c1 as [d1 l1 f1], c2 as [d2 l2 f2]. unfold declare, with_defs. cbn in *. subst l2. f_equal.
  - apply scope_ext. intros j. destruct (beq j k) eqn:J.
    + apply beq_eq in J. subst. rewrite K2, !get_put_same. reflexivity.
    + apply beq_neq in J. rewrite <- SD by congruence. rewrite get_put_other by exact J. reflexivity.
  - unfold head in *. cbn in *. inversion SF; subst. cbn in *. congruence.
Qed.
Lemma place_back ns c m q' : ss ns -> good c -> means_all E ns (declare k m c) q' ->
  exists q, means_all E ns c q /\ match q with Ok (vs, c1) => q' = Ok (vs, declare k m c1) | _ => q' = q end.
Proof.
  intros O G H. assert (P : Proofs_dead.pair K (declare k m c) c) by (apply Proofs_dead.pair_declared; [reflexivity|apply good_self, G]).
  destruct (proj1 (proj2 SIM) _ _ _ H (proj1 O) _ P) as [q [H' X]]. exists q. split; [exact H'|].
  destruct q' as [[vs c1]| | | |]; try (cbn in X; try contradiction; subst q; reflexivity).
  destruct X as [c2 [-> [V [[SD SL SF] _]]]]. f_equal. f_equal.
  pose proof (proj1 (proj2 means_steady) _ _ _ H O (good_declared _ m G) _ _ eq_refl) as [K1 F1].
  pose proof (proj1 (proj2 means_steady) _ _ _ H' O G _ _ eq_refl) as [_ F2].
  destruct c1 as [d1 l1 f1], c2 as [d2 l2 f2]. unfold declare, with_defs. cbn in *. subst l2. f_equal.
  - apply scope_ext. intros j. destruct (beq j k) eqn:J.
    + apply beq_eq in J. subst. rewrite K1, !get_put_same. reflexivity.
    + apply beq_neq in J. rewrite (SD j) by congruence. rewrite get_put_other by exact J. reflexivity.
  - unfold head in *. cbn in *. inversion SF; subst. cbn in *. congruence.
Qed.
Lemma past D ns post c r : defines (eq k) D -> ss ns -> good c ->
  means_all E (D :: ns ++ post) c r <-> means_all E (ns ++ D :: post) c r.
Proof.
  intros DE O G. destruct (Proofs_dead.defines_always K E _ DE) as [j [m [<- DD]]].
  rewrite (alone _ _ _ _ (proj1 (DD c)) (proj2 (DD c)) _). split; intros H.
  - destruct (all_app_inv _ _ _ _ _ H) as [[xs [c1 [q [A [B ->]]]]]|[q [A F]]].
    + destruct (place_back _ _ _ _ O G A) as [q0 [A' Q]]. destruct q0 as [[vs c2]| | | |]; try discriminate Q. injection Q as <- ->.
      refine (all_app _ _ _ _ _ _ _ A' _). apply (alone _ _ _ _ (proj1 (DD c2)) (proj2 (DD c2)) _). exact B.
    + destruct (place_back _ _ _ _ O G A) as [q0 [A' Q]]. refine (all_app_fails _ _ _ _ _ _ A' _).
      destruct q0 as [[? ?]| | | |]; subst q; try contradiction; exact F.
  - destruct (all_app_inv _ _ _ _ _ H) as [[xs [c1 [q [A [B ->]]]]]|[q [A F]]].
    + destruct (same_place _ _ m _ O G A) as [q0 [A' ->]]. refine (all_app _ _ _ _ _ _ _ A' _).
      apply (alone _ _ _ _ (proj1 (DD c1)) (proj2 (DD c1)) _) in B. exact B.
    + destruct (same_place _ _ m _ O G A) as [q0 [A' Q]]. refine (all_app_fails _ _ _ _ _ _ A' _).
      destruct q as [[? ?]| | | |]; subst q0; try contradiction; exact F.
Qed.
Lemma good_after n c xs c1 : unrelated k n \/ defines (eq k) n -> good c -> means E n c (Ok (xs, c1)) -> good c1.
Proof.
  intros [U|D] G H.
  - apply (node_fine _ _ _ H (unrelated_iff _ U) G _ _ eq_refl).
  - destruct (Proofs_dead.defines_always K E _ D) as [j [m [<- DD]]]. apply DD in H. injection H as _ ->. apply good_declared, G.
Qed.
Lemma past_pre D ns post : defines (eq k) D -> ss ns -> forall pre c r,
  Forall (fun n => unrelated k n \/ defines (eq k) n) pre -> good c ->
  means_all E (pre ++ D :: ns ++ post) c r <-> means_all E (pre ++ ns ++ D :: post) c r.
Proof.
  intros DE O. induction pre as [|n pre IH]; intros c r F G; [apply past; assumption|]. inversion F as [|? ? F1 F2]; subst.
  split; intros H; cbn [app] in *; inversion H as [|? ? ? xs c1 q R1 R2|? ? ? q ? R1 X]; subst.
  - eapply means_cons; [exact R1|]. apply IH; [exact F2|exact (good_after _ _ _ _ F1 G R1)|exact R2].
  - eapply means_stop; eassumption.
  - eapply means_cons; [exact R1|]. apply IH; [exact F2|exact (good_after _ _ _ _ F1 G R1)|exact R2].
  - eapply means_stop; eassumption.
Qed.

Lemma rearranged_same tree tree' c r : rearranged k tree tree' -> unrelated_defs k (k_defs c) -> k_files c <> [] ->
  means_all E tree c r <-> means_all E tree' c r.
Proof.
  intros R U F. assert (G : good c).
  { split; [|split; [|exact F]].
    - intros j m N Q. assert (N' : j <> k) by congruence. destruct (U j m N' Q) as [A B].
      split; [revert A|revert B]; apply Forall_impl; intros n X; apply unrelated_iff, X.
    - intros j m N Q. destruct (U j m N Q) as [A B]. split; [revert A|revert B]; apply Forall_impl; intros n X; apply unrelated_iff, X. }
  destruct R as [pre D ns post P D0 N|pre D ns post P D0 N].
  - apply past_pre; [exact D0|apply unrelated_all, N|exact P|exact G].
  - symmetry. apply past_pre; [exact D0|apply unrelated_all, N|exact P|exact G].
Qed.
End Rules.
End Stay.

(** ** Definitions in any order *)

Lemma definition_of E D k : defines (eq k) D -> exists m, forall c,
  means E D c (Ok ([], declare k m c)) /\ forall r, means E D c r -> r = Ok ([], declare k m c).
Proof. intros H. destruct (Proofs_dead.defines_always _ E _ H) as [j [m [<- X]]]. exists m. exact X. Qed.
Lemma declare_swap k j m n c : k <> j -> declare k m (declare j n c) = declare j n (declare k m c).
Proof.
  intros N. unfold declare, with_defs. cbn. f_equal. apply scope_ext. intros i.
  destruct (beq i k) eqn:I; [apply beq_eq in I; subst|apply beq_neq in I].
  - rewrite get_put_same. rewrite get_put_other by congruence. rewrite get_put_same. reflexivity.
  - rewrite get_put_other by congruence. destruct (beq i j) eqn:J; [apply beq_eq in J; subst|apply beq_neq in J].
    + rewrite !get_put_same. reflexivity.
    + rewrite !get_put_other by congruence. reflexivity.
Qed.
Lemma neighbours E D D' k j post c r : defines (eq k) D -> defines (eq j) D' -> k <> j ->
  means_all E (D :: D' :: post) c r <-> means_all E (D' :: D :: post) c r.
Proof.
  intros H H' N. destruct (definition_of E _ _ H) as [m A]. destruct (definition_of E _ _ H') as [m' A'].
  rewrite (alone k E _ _ _ _ (proj1 (A c)) (proj2 (A c)) _).
  rewrite (alone j E _ _ _ _ (proj1 (A' _)) (proj2 (A' _)) _).
  rewrite (alone j E _ _ _ _ (proj1 (A' c)) (proj2 (A' c)) _).
  rewrite (alone k E _ _ _ _ (proj1 (A _)) (proj2 (A _)) _).
  rewrite (declare_swap j k) by congruence. reflexivity.
Qed.
Lemma same_front E n ns ns' : (forall c r, means_all E ns c r <-> means_all E ns' c r) ->
  forall c r, means_all E (n :: ns) c r <-> means_all E (n :: ns') c r.
Proof.
  intros X c r. split; intros H; inversion H as [|? ? ? xs c1 q R1 R2|? ? ? q ? R1 F]; subst.
  - eapply means_cons; [exact R1|]. apply X, R2.
  - eapply means_stop; eassumption.
  - eapply means_cons; [exact R1|]. apply X, R2.
  - eapply means_stop; eassumption.
Qed.
Lemma names_permuted ds ds' : Permutation ds ds' -> forall names, definitions ds names ->
  exists names', definitions ds' names' /\ Permutation names names'.
Proof.
  induction 1 as [|D ds ds' P IH|D D' ds|ds ds1 ds2 P1 IH1 P2 IH2]; intros names [F N].
  - inversion F; subst. exists []. split; [split; [constructor|constructor]|constructor].
  - inversion F as [|? k ? names' F1 F2]; subst. inversion N as [|? ? N1 N2]; subst.
    destruct (IH names' (conj F2 N2)) as [l [[F' N'] Q]]. exists (k :: l). split; [|constructor; exact Q].
    split; [constructor; assumption|]. constructor; [|exact N']. intros I. apply N1. apply Permutation_sym in Q. exact (Permutation_in _ Q I).
  - inversion F as [|? k ? names' F1 F2]; subst. inversion F2 as [|? j ? names2 F3 F4]; subst.
    exists (j :: k :: names2). assert (Q : Permutation (k :: j :: names2) (j :: k :: names2)) by constructor.
    split; [|exact Q]. split; [constructor; [assumption|constructor; assumption]|]. exact (Permutation_NoDup Q N).
  - destruct (IH1 _ (conj F N)) as [l [D1 Q1]]. destruct (IH2 _ D1) as [l' [D2 Q2]]. exists l'. split; [exact D2|]. etransitivity; eassumption.
Qed.
Lemma any_order E post ds ds' : Permutation ds ds' -> forall names, definitions ds names ->
  forall c r, means_all E (ds ++ post) c r <-> means_all E (ds' ++ post) c r.
Proof.
  induction 1 as [|D ds ds' P IH|D D' ds|ds ds1 ds2 P1 IH1 P2 IH2]; intros names DE.
  - reflexivity.
  - destruct DE as [F N]. inversion F as [|? k ? names' F1 F2]; subst. inversion N as [|? ? N1 N2]; subst. cbn.
    apply same_front. exact (IH _ (conj F2 N2)).
  - destruct DE as [F N]. inversion F as [|? k ? names' F1 F2]; subst. inversion F2 as [|? j ? names2 F3 F4]; subst. cbn.
    intros c r. apply (neighbours E _ _ k j); [assumption..|]. inversion N as [|? ? N1 _]; subst. intros ->. apply N1. left. reflexivity.
  - intros c r. rewrite (IH1 _ DE). destruct (names_permuted _ _ P1 _ DE) as [l [DE' _]]. exact (IH2 _ DE' c r).
Qed.
Lemma block_order E pre post ds ds' names : Permutation ds ds' -> definitions ds names ->
  forall c r, means_all E (pre ++ ds ++ post) c r <-> means_all E (pre ++ ds' ++ post) c r.
Proof.
  intros P DE. induction pre as [|n pre IH]; cbn; [exact (any_order E post _ _ P _ DE)|]. apply same_front, IH.
Qed.
