(** * Proofs: documents of trees that differ in positions only (C71) *)

From Coq Require Import String List Ascii Bool Arith Lia.
From Verif Require Import Text Utf8 Res Ast Debug Format Env State Cli Spec_moved Proofs_text Proofs_ast Proofs_moved.
Import ListNotations.

Section Out.
Variable R : site -> site -> Prop.
Variable flag : bool.
Notation mv := (moved R).
Notation al := (alike R).
Notation ala := (alike_atom R).
Notation als := (Forall2 (alike R)).
Notation rel := (rel R flag).
Notation same := (rel eq).
Variable printable : bytes -> bool.
Notation css_value := (css_value printable).
Notation css_rule := (css_rule printable).
Notation css_oneline := (css_oneline printable).
Notation css_props := (css_props printable).
Notation css_gen := (css_gen printable).
Notation sexp_node := (sexp_node printable).

Lemma ok_same {X} (x : X) : same (Ok x) (Ok x).
Proof. apply rel_ok. reflexivity. Qed.
Ltac next := eapply (rel_bind R flag eq); [|intros ? ? <-].

Lemma flat_same (f : node -> bytes) ns : Forall (fun n => forall n', al n n' -> f n = f n') ns ->
  forall ns', als ns ns' -> flat_map f ns = flat_map f ns'.
Proof.
  intros H. induction H as [|n ns N H IH]; intros ns' A; inversion A; subst; cbn; [reflexivity|].
  rewrite (N _ H2), (IH _ H4). reflexivity.
Qed.
Lemma text_node_same n : forall n', al n n' -> text_node n = text_node n'.
Proof.
  induction n as [a|a|a|a|ns st ew es w IH|k v st w IH] using node_ind'; intros n' A;
    inversion A as [? ? [Q [W _]]|? ? [Q [W _]]|? ? [Q [W _]]|? ? [Q [W _]]|? ? ? ? ? ? ? ? Q M1 M2|? ? ? ? ? ? Q M1]; subst; cbn [text_node];
    try (rewrite W, Q; reflexivity).
  - rewrite (flat_same _ _ IH _ Q). reflexivity.
  - rewrite (IH _ Q). reflexivity.
Qed.
Lemma sexp_node_same n : forall n', al n n' -> sexp_node n = sexp_node n'.
Proof.
  induction n as [a|a|a|a|ns st ew es w IH|k v st w IH] using node_ind'; intros n' A;
    inversion A as [? ? [Q [W _]]|? ? [Q [W _]]|? ? [Q [W _]]|? ? [Q [W _]]|? ? ? ? ? ? ? ? Q M1 M2|? ? ? ? ? ? Q M1]; subst; cbn [Format.sexp_node];
    try (rewrite W, Q; reflexivity).
  - rewrite (flat_same _ _ IH _ Q). reflexivity.
  - rewrite (IH _ Q). reflexivity.
Qed.
Lemma text_same ns ns' : als ns ns' -> text_gen ns = text_gen ns'.
Proof. intros A. apply flat_same; [|exact A]. apply Forall_forall. intros n _. apply text_node_same. Qed.
Lemma sexp_same ns ns' : als ns ns' -> sexp_gen printable ns = sexp_gen printable ns'.
Proof. intros A. apply flat_same; [|exact A]. apply Forall_forall. intros n _. apply sexp_node_same. Qed.

(** ** CSS *)

Lemma css_value_same n : forall n', al n n' -> same (css_value n) (css_value n').
Proof.
  induction n as [a|a|a|a|ns st ew es w IH|k v st w IH] using node_ind'; intros n' A;
    inversion A as [? ? [Q [W _]]|? ? [Q [W _]]|? ? [Q [W _]]|? ? [Q [W _]]|? ? ? ? ? ? ? ? Q M1 M2|? ? ? ? ? ? Q M1]; subst; cbn [Format.css_value];
    try (rewrite Q; apply ok_same).
  - destruct Q as [|h h' t t' H T]; [apply ok_same|]. inversion IH as [|? ? I1 I2]; subst.
    next; [apply I1, H|]. next; [|apply ok_same].
    clear -I2 T. induction T as [|x y t t' X T IHt]; [apply ok_same|]. inversion I2 as [|? ? J1 J2]; subst.
    next; [apply J1, X|]. next; [apply IHt, J2|]. apply ok_same.
  - apply rel_err. exact M1.
Qed.
Lemma css_oneline_same ns ns' : als ns ns' -> same (css_oneline ns) (css_oneline ns').
Proof.
  intros H. induction H as [|n n' ns ns' A H IH]; cbn [Format.css_oneline]; [apply ok_same|].
  next; [|next; [exact IH|apply ok_same]].
  assert (V := css_value_same _ _ A).
  destruct A; try (next; [exact V|apply ok_same]). next; [apply css_value_same; eassumption|apply ok_same].
Qed.
Lemma take_atoms_alike ns ns' : als ns ns' -> Forall2 ala (take_atoms ns) (take_atoms ns').
Proof.
  intros H. induction H as [|n n' ns ns' A H IH]; cbn; [constructor|]. apply al_atomic in A.
  destruct (atomic n), (atomic n'); try contradiction; constructor; assumption.
Qed.
Lemma skipn_alike ns ns' i : als ns ns' -> als (skipn i ns) (skipn i ns').
Proof. intros H. revert i. induction H; intros [|i]; cbn; auto. Qed.
Lemma css_props_same ns ns' : als ns ns' -> same (css_props ns) (css_props ns').
Proof.
  intros H. induction H as [|n n' ns ns' A H IH]; cbn [Format.css_props]; [apply ok_same|].
  assert (ST := al_site _ _ _ A). destruct A; try (apply rel_err, ST).
  next; [apply css_value_same; eassumption|]. next; [exact IH|apply ok_same].
Qed.
Lemma css_rule_same n : forall n', al n n' -> same (css_rule n) (css_rule n').
Proof.
  induction n as [a|a|a|a|ns st ew es w IH|k v st w IH] using node_ind'; intros n' A;
    inversion A as [? ? [Q [W _]]|? ? [Q [W _]]|? ? [Q [W _]]|? ? [Q [W _]]|? ? ? ? ? ? ? ? Q M1 M2|? ? ? ? ? ? Q M1]; subst; cbn [Format.css_rule];
    try apply rel_panic.
  assert (QQ := Q). destruct Q as [|h h' t t' H T]; [apply rel_panic|]. inversion IH as [|? ? I1 I2]; subst.
  assert (Y := al_atomic _ _ _ H). destruct (atomic h) as [a|], (atomic h') as [a'|]; try contradiction; [|apply rel_panic].
  destruct Y as [<- _]. destruct (mem (a_val a) css_special_selectors && negb (mem (a_val a) css_non_nested)).
  - destruct (mem (a_val a) css_oneline_rules); [next; [apply css_oneline_same, T|apply ok_same]|].
    next; [|apply ok_same]. clear -I2 T. 
    match goal with |- Proofs_moved.rel _ _ _ (?F false _) (?G false _) => assert (K : forall rules, same (F rules t) (G rules t')); [|apply K] end.
    induction T as [|x y t t' X T IHt]; intros rules; [apply ok_same|]. inversion I2 as [|? ? J1 J2]; subst.
    assert (J := J1 _ X). assert (V := css_value_same _ _ X). assert (ST := al_site _ _ _ X).
    destruct X; try (destruct rules; [apply rel_err, ST|]; next; [exact V|]; next; [apply IHt, J2|apply ok_same]).
    + next; [exact J|]. next; [apply IHt, J2|apply ok_same].
    + destruct rules; [apply rel_err, ST|]. next; [apply css_value_same; eassumption|]. next; [apply IHt, J2|apply ok_same].
  - assert (P : prop_index (h :: t) = prop_index (h' :: t')).
    { unfold prop_index. rewrite (fa2_length _ _ _ (take_atoms_alike _ _ QQ)), (fa2_length _ _ _ QQ). reflexivity. }
    rewrite <- P. next; [apply css_props_same, skipn_alike, QQ|].
    replace (selector_text (take_atoms (h' :: t'))) with (selector_text (take_atoms (h :: t))); [apply ok_same|].
    unfold selector_text. assert (TA := take_atoms_alike _ _ QQ). clear -TA.
    induction TA as [|? ? ? ? [Q _] TA IH]; cbn [flat_map]; [reflexivity|]. rewrite Q, IH. reflexivity.
Qed.
Lemma css_gen_same ns ns' : als ns ns' -> same (css_gen ns) (css_gen ns').
Proof.
  intros H. induction H as [|n n' ns ns' A H IH]; cbn [Format.css_gen]; [apply ok_same|].
  assert (V := css_rule_same _ _ A). assert (ST := al_site _ _ _ A). destruct A; try (apply rel_err, ST).
  next; [exact V|]. next; [exact IH|apply ok_same].
Qed.
Lemma css_document_same ns ns' : als ns ns' -> same (css_document printable ns) (css_document printable ns').
Proof. intros A. unfold css_document. assert (G := css_gen_same _ _ A). destruct A; [apply ok_same|exact G]. Qed.

(** ** XML *)

Lemma xml_attribute_same n n' : al n n' -> same (xml_attribute n) (xml_attribute n').
Proof.
  intros []; cbn; try apply rel_panic. assert (Y := al_atomic _ _ _ H). assert (ST := al_site _ _ _ H).
  destruct (atomic v), (atomic v'); try contradiction; [destruct Y as [<- _]; apply ok_same|apply rel_err, ST].
Qed.
Lemma xml_attributes_same ns ns' : als ns ns' -> same (xml_attributes ns) (xml_attributes ns').
Proof.
  intros H. induction H as [|n n' ns ns' A H IH]; cbn [xml_attributes]; [apply ok_same|].
  assert (X := xml_attribute_same _ _ A). destruct A; try apply ok_same.
  next; [exact X|]. next; [exact IH|apply ok_same].
Qed.
Lemma drop_alike ns ns' : als ns ns' -> als (drop_attributes ns) (drop_attributes ns').
Proof.
  intros H. induction H as [|n n' ns ns' A H IH]; cbn [drop_attributes]; [constructor|].
  destruct A; try exact IH; constructor; try assumption; constructor; assumption.
Qed.
Lemma symbolic_alike n n' : al n n' -> orel ala (symbolic n) (symbolic n').
Proof. intros []; cbn; auto. Qed.
Lemma is_attribute_same n n' : al n n' -> is_attribute n = is_attribute n'.
Proof. intros []; reflexivity. Qed.
Lemma xml_declaration_same ns ns' : als ns ns' -> same (xml_declaration ns) (xml_declaration ns').
Proof.
  intros H. induction H as [|n n' ns ns' A H IH]; cbn [xml_declaration]; [apply ok_same|].
  assert (Y := symbolic_alike _ _ A). assert (X := xml_attribute_same _ _ A). assert (ST := al_site _ _ _ A).
  destruct (symbolic n), (symbolic n'); try contradiction.
  - destruct Y as [<- _]. next; [exact IH|apply ok_same].
  - destruct A; try (apply rel_err, ST). next; [exact X|]. next; [exact IH|apply ok_same].
Qed.
Lemma next_line_same ns ns' : als ns ns' -> on_next_line ns = on_next_line ns'.
Proof. intros []; cbn; [reflexivity|]. rewrite (al_ws _ _ _ H). reflexivity. Qed.
Lemma adjust_alike ns ns' : als ns ns' -> als (adjust_first ns) (adjust_first ns').
Proof. intros []; cbn; [constructor|]. rewrite (al_ws _ _ _ H). constructor; [|assumption]. destruct (has LF _); [|apply al_set_ws]; assumption. Qed.

Lemma xml_node_same n : forall n' ws, al n n' -> same (xml_node_ws ws n) (xml_node_ws ws n').
Proof.
  induction n as [a|a|a|a|ns st ew es w IH|k v st w IH] using node_ind'; intros n' ws A;
    inversion A as [? ? [Q [W ?]]|? ? [Q [W ?]]|? ? [Q [W ?]]|? ? [Q [W ?]]|? ? ? ? ? ? ? ? Q M1 M2|? ? ? ? ? ? Q M1]; subst; cbn [xml_node_ws];
    try (rewrite Q; apply ok_same); try (apply rel_err; assumption).
  destruct Q as [|h h' t t' H T]; [apply rel_err; assumption|]. inversion IH as [|? ? I1 I2]; subst.
  assert (ST := al_site _ _ _ H). destruct H as [a a' [Q _]| | | | |]; try (apply rel_err, ST). rewrite <- Q.
  destruct (a_val a) as [|front r]; [apply rel_panic|].
  destruct (ch front "!" || ch front "?"); [next; [apply xml_declaration_same, T|apply ok_same]|].
  next; [apply xml_attributes_same, T|].
  rewrite <- (next_line_same _ _ (drop_alike _ _ T)). next; [|apply ok_same].
  clear -I2 T. 
  match goal with |- Proofs_moved.rel _ _ _ (?F true _) (?G true _) => assert (K : forall fr, same (F fr t) (G fr t')); [|apply K] end.
  induction T as [|x y t t' X T IHt]; intros fr; [apply ok_same|].
  inversion I2 as [|? ? J1 J2]; subst. rewrite <- (is_attribute_same _ _ X), <- (al_ws _ _ _ X).
  destruct (fr && is_attribute x); [apply IHt, J2|].
  next; [apply J1, X|]. next; [apply IHt, J2|apply ok_same].
Qed.
Lemma xml_gen_same ns ns' : als ns ns' -> same (xml_gen ns) (xml_gen ns').
Proof.
  intros H. unfold xml_gen. induction H as [|n n' ns ns' A H IH]; cbn [map concat_res]; [apply ok_same|].
  next; [unfold xml_node; rewrite <- (al_ws _ _ _ A); apply xml_node_same, A|]. next; [exact IH|apply ok_same].
Qed.
Lemma xml_document_same ns ns' : als ns ns' -> same (xml_document ns) (xml_document ns').
Proof.
  intros A. unfold xml_document. assert (G := xml_gen_same _ _ A).
  assert (D : has_xml_declaration ns = has_xml_declaration ns').
  { clear -A. destruct A as [|n n' ns ns' X A]; [reflexivity|]. destruct X as [| | | |? ? ? ? ? ? ? ? Q|]; try reflexivity.
    destruct Q as [|h h' t t' HH T]; [reflexivity|]. destruct HH as [a a' [Q _]| | | | |]; try reflexivity. cbn. rewrite Q. reflexivity. }
  rewrite <- D. destruct A; [apply ok_same|]. next; [exact G|apply ok_same].
Qed.

(** ** HTML *)

Variables sources sources' : nat -> bytes.

Lemma html_attributes_same ns ns' : als ns ns' -> same (html_attributes ns) (html_attributes ns').
Proof.
  intros H. induction H as [|n n' ns ns' A H IH]; cbn [html_attributes]; [apply ok_same|].
  destruct A as [| | | | |k v v' st st' w V M]; try apply ok_same. assert (Y := al_atomic _ _ _ V). assert (ST := al_site _ _ _ V).
  destruct (atomic v), (atomic v'); try contradiction; [|apply rel_err, ST].
  next; [exact IH|]. destruct Y as [<- _]. apply ok_same.
Qed.
Lemma html_declaration_same ns ns' : als ns ns' -> same (html_declaration ns) (html_declaration ns').
Proof.
  intros H. induction H as [|n n' ns ns' A H IH]; cbn [html_declaration]; [apply ok_same|].
  assert (Y := symbolic_alike _ _ A). assert (ST := al_site _ _ _ A).
  destruct (symbolic n), (symbolic n'); try contradiction; [|apply rel_err, ST].
  destruct Y as [<- _]. next; [exact IH|apply ok_same].
Qed.
Lemma preless_all (l : list node) :
  (fix all (l : list node) : Prop := match l with [] => True | x :: l' => preless x /\ all l' end) l <-> Forall preless l.
Proof. induction l as [|x l IH]; [split; [constructor|auto]|]. rewrite Forall_cons_iff, <- IH. reflexivity. Qed.

Lemma html_node_same n : preless n -> forall n' ws, al n n' ->
  same (html_node_ws printable sources ws n) (html_node_ws printable sources' ws n').
Proof.
  induction n as [a|a|a|a|ns st ew es w IH|k v st w IH] using node_ind'; intros PL n' ws A;
    inversion A as [? ? [Q [W ?]]|? ? [Q [W ?]]|? ? [Q [W ?]]|? ? [Q [W ?]]|? ? ? ? ? ? ? ? Q M1 M2|? ? ? ? ? ? Q M1]; subst; cbn [html_node_ws];
    try (rewrite Q; apply ok_same); try (apply rel_err; assumption).
  cbn [preless] in PL. destruct PL as [NP PL]. apply preless_all in PL.
  destruct Q as [|h h' t t' H T]; [apply rel_err; assumption|]. inversion IH as [|? ? I1 I2]; subst. inversion PL as [|? ? _ PL2]; subst.
  assert (ST := al_site _ _ _ H). destruct H as [a a' [Q _]| | | | |]; try (apply rel_err, ST). rewrite <- Q.
  destruct (to_lower (a_val a)) as [|front r] eqn:TG; [apply rel_panic|].
  destruct (ch front "!"); [next; [apply html_declaration_same, T|apply ok_same]|].
  next; [apply html_attributes_same, T|].
  assert (D := drop_alike _ _ T). destruct (mem (front :: r) void_elements).
  { destruct D; [apply ok_same|]. apply rel_err, al_site. assumption. }
  rewrite <- (next_line_same _ _ D). next; [|apply ok_same].
  destruct (beq (front :: r) (b "pre")) eqn:PRE; [apply beq_eq in PRE; contradiction|].
  assert (AD := adjust_alike _ _ D).
  destruct (beq (front :: r) (b "textarea") || beq (front :: r) (b "title")); [rewrite (text_same _ _ AD); apply ok_same|].
  destruct (beq (front :: r) (b "style")).
  { assert (CS : same (let* css := css_gen (adjust_first (drop_attributes t)) in Ok (LF :: css)) (let* css := css_gen (adjust_first (drop_attributes t')) in Ok (LF :: css))).
    { next; [apply css_gen_same, AD|apply ok_same]. }
    destruct D as [|d d' more more' D DM]; [exact CS|]. destruct D as [| |s s' [Q2 [_ M3]]| | |]; try exact CS.
    destruct DM; [rewrite Q2; apply ok_same|apply rel_err, M3]. }
  destruct (beq (front :: r) (b "script")); [rewrite (sexp_same _ _ AD); apply ok_same|].
  destruct (beq (front :: r) (b "math") || beq (front :: r) (b "svg")); [apply xml_gen_same, AD|].
  clear -I2 T PL2. 
  match goal with |- Proofs_moved.rel _ _ _ (?F true _) (?G true _) => assert (K : forall fr, same (F fr t) (G fr t')); [|apply K] end.
  induction T as [|x y t t' X T IHt]; intros fr; [apply ok_same|].
  inversion I2 as [|? ? J1 J2]; subst. inversion PL2 as [|? ? P1 P2]; subst. rewrite <- (is_attribute_same _ _ X), <- (al_ws _ _ _ X).
  destruct (fr && is_attribute x); [apply IHt; assumption|].
  next; [apply J1; assumption|]. next; [apply IHt; assumption|apply ok_same].
Qed.
Lemma html_gen_same ns ns' : Forall preless ns -> als ns ns' -> same (html_gen printable sources ns) (html_gen printable sources' ns').
Proof.
  intros P H. unfold html_gen. induction H as [|n n' ns ns' A H IH]; cbn [map concat_res]; [apply ok_same|].
  inversion P; subst. next; [unfold html_node; rewrite <- (al_ws _ _ _ A); apply html_node_same; assumption|]. next; [apply IH; assumption|apply ok_same].
Qed.

Lemma search_same v i n : forall n' level, al n n' ->
  is_some (search_node SListHead v i level n) = is_some (search_node SListHead v i level n').
Proof.
  induction n as [a|a|a|a|ns st ew es w IH|k x st w IH] using node_ind'; intros n' level A;
    inversion A as [? ? [Q [W ?]]|? ? [Q [W ?]]|? ? [Q [W ?]]|? ? [Q [W ?]]|? ? ? ? ? ? ? ? Q M1 M2|? ? ? ? ? ? Q M1]; subst;
    (destruct level as [|level]; [reflexivity|]); cbn [search_node is_a andb]; try reflexivity.
  - match goal with H : als ns ?l |- _ => rename l into ns' end.
    set (rest := fun l => match level with 0 => None | S _ => (fix go (ns : list node) : option node :=
      match ns with [] => None | m :: ns' => match search_node SListHead v i level m with Some x => Some x | None => go ns' end end) l end).
    change (is_some (match ns with [] => rest ns | hd :: _ => match atomic hd with
        | Some a => if (if i then beq (to_lower (a_val a)) (to_lower v) else beq (a_val a) v) then Some (Lst ns st ew es w) else rest ns | None => rest ns end end) =
      is_some (match ns' with [] => rest ns' | hd :: _ => match atomic hd with
        | Some a => if (if i then beq (to_lower (a_val a)) (to_lower v) else beq (a_val a) v) then Some (Lst ns' st' ew es' w) else rest ns' | None => rest ns' end end)).
    assert (K : is_some (rest ns) = is_some (rest ns')).
    { unfold rest. destruct level as [|level]; [reflexivity|]. clear -IH Q. induction Q as [|x y t t' X T IHt]; [reflexivity|].
      inversion IH as [|? ? J1 J2]; subst. specialize (J1 _ (S level) X).
      destruct (search_node SListHead v i (S level) x), (search_node SListHead v i (S level) y); cbn in J1; try discriminate; [reflexivity|].
      apply IHt, J2. }
    clearbody rest. destruct Q as [|x y t t' X T]; [exact K|]. assert (Y := al_atomic _ _ _ X).
    destruct (atomic x), (atomic y); try contradiction; [|exact K]. destruct Y as [-> _]. destruct (if i then _ else _); [reflexivity|exact K].
  - apply IH, Q.
Qed.
Lemma search_tree_same v i level ns ns' : als ns ns' ->
  is_some (search_tree SListHead v i level ns) = is_some (search_tree SListHead v i level ns').
Proof.
  intros H. destruct level as [|level]; [destruct H; reflexivity|].
  induction H as [|n n' ns ns' A H IH]; [reflexivity|]. cbn [search_tree]. assert (K := search_same v i _ _ (S level) A).
  destruct (search_node SListHead v i (S level) n), (search_node SListHead v i (S level) n'); cbn in K; try discriminate; [reflexivity|exact IH].
Qed.
Lemma html_document_same ns ns' : Forall preless ns -> als ns ns' ->
  same (html_document printable sources ns) (html_document printable sources' ns').
Proof.
  intros P A. unfold html_document. assert (G := html_gen_same _ _ P A).
  rewrite <- !(fun v l => search_tree_same v true l _ _ A).
  destruct A; [apply ok_same|]. next; [exact G|apply ok_same].
Qed.
End Out.

Lemma rel_document R (r r' : res bytes) : (forall flag, rel R flag eq r r') -> alike_document R r r'.
Proof.
  intros H. assert (H1 := H true). assert (H2 := H false). unfold rel, stop in *.
  destruct r as [x|[k st]|p| |], r' as [x'|[k' st']|p'| |]; destruct H1 as [H1|H1]; destruct H2 as [H2|H2]; try discriminate; try contradiction; try (constructor; fail).
  - subst. constructor.
  - destruct H1 as [<- M]. constructor. exact M.
  - subst. constructor.
  - subst. constructor.
Qed.

(** Whatever the target. *)
Theorem formatted_alike R printable target doc ns ns' s s' : Forall2 (alike R) ns ns' ->
  (target = b "html" -> Forall preless ns) ->
  match formatted printable target doc ns s, formatted printable target doc ns' s' with
  | inl r, inl r' => alike_document R r r'
  | inr code, inr code' => code = code'
  | _, _ => False
  end.
Proof.
  intros A P. unfold formatted.
  destruct (beq target (b "text")); [rewrite (text_same R ns ns' A); constructor|].
  destruct (beq target (b "sexp")); [rewrite (sexp_same R printable ns ns' A); constructor|].
  destruct (beq target (b "html")) eqn:H.
  { apply beq_eq in H. specialize (P H). apply rel_document. intros flag.
    destruct doc; [apply html_document_same|apply html_gen_same]; assumption. }
  destruct (beq target (b "xml")).
  { apply rel_document. intros flag. destruct doc; [apply xml_document_same|apply xml_gen_same]; assumption. }
  destruct (beq target (b "css")).
  { apply rel_document. intros flag. destruct doc; [apply css_document_same|apply css_gen_same]; assumption. }
  destruct (existsb (beq target) supported_targets); [constructor|reflexivity].
Qed.
