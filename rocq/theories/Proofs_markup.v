(** * Proofs about escaping, the markup grammar and the XML and HTML
      formatters *)

From Coq Require Import String List Ascii Bool Arith Lia.
From Verif Require Import Text Utf8 Res Ast Debug Format Spec_grammar Spec_tree Spec_markup
  Proofs_text Proofs_ast.
Import ListNotations.

(** ** Escaping *)

Lemma escaped_app : forall t1 s1, Escaped t1 s1 -> forall t2 s2, Escaped t2 s2 ->
  Escaped (t1 ++ t2) (s1 ++ s2).
Proof.
  induction 1; intros t2 s2 E2; simpl; auto.
  - rewrite <- app_assoc. apply esc_entity; auto.
  - apply esc_char; auto.
Qed.

Lemma escape_byte_escaped : forall c, Escaped (escape_xml_byte c) [c].
Proof.
  intro c. unfold escape_xml_byte.
  destruct (ch c "<") eqn:E1; [apply ch_eq in E1; subst; rewrite <- (app_nil_r (b _)); apply esc_entity; [simpl; auto 10|constructor]|].
  destruct (ch c ">") eqn:E2; [apply ch_eq in E2; subst; rewrite <- (app_nil_r (b _)); apply esc_entity; [simpl; auto 10|constructor]|].
  destruct (ch c DQ) eqn:E3; [apply ch_eq in E3; subst; rewrite <- (app_nil_r (b _)); apply esc_entity; [simpl; auto 10|constructor]|].
  destruct (ch c "'") eqn:E4; [apply ch_eq in E4; subst; rewrite <- (app_nil_r (b _)); apply esc_entity; [simpl; auto 10|constructor]|].
  destruct (ch c "&") eqn:E5; [apply ch_eq in E5; subst; rewrite <- (app_nil_r (b _)); apply esc_entity; [simpl; auto 10|constructor]|].
  apply ch_neq in E1, E2, E3, E4, E5.
  apply esc_char; [simpl; intuition congruence|constructor].
Qed.

Lemma escape_escaped : forall s, Escaped (escape_xml s) s.
Proof.
  induction s as [|c s IH]; simpl; [constructor|].
  apply (escaped_app _ [c]); auto using escape_byte_escaped.
Qed.

(** Entities: what they look like. *)
Lemma entity_shape : forall e c, In (e, c) entities ->
  exists r, e = "&"%char :: r ++ b ";" /\ ~ In ";"%char r /\
            Forall (fun x => ~ In x [ "<"%char; ">"%char; DQ; "'"%char; "&"%char ]) r.
Proof.
  intros e c I. simpl in I.
  destruct I as [I|[I|[I|[I|[I|[]]]]]]; injection I as <- <-.
  - exists (b "lt"); simpl; repeat split; [intuition discriminate|].
    repeat constructor; simpl; intuition discriminate.
  - exists (b "gt"); simpl; repeat split; [intuition discriminate|].
    repeat constructor; simpl; intuition discriminate.
  - exists (b "quot"); simpl; repeat split; [intuition discriminate|].
    repeat constructor; simpl; intuition discriminate.
  - exists (b "apos"); simpl; repeat split; [intuition discriminate|].
    repeat constructor; simpl; intuition discriminate.
  - exists (b "amp"); simpl; repeat split; [intuition discriminate|].
    repeat constructor; simpl; intuition discriminate.
Qed.

(** Cutting a text at the first character outside a set. *)
Lemma cut_unique : forall (P : ascii -> Prop) x y X Y,
  x ++ X = y ++ Y -> Forall P x -> Forall P y ->
  (forall c r, X = c :: r -> ~ P c) -> (forall c r, Y = c :: r -> ~ P c) ->
  x = y /\ X = Y.
Proof.
  induction x as [|c x IH]; intros [|d y] X Y E Fx Fy HX HY; simpl in E.
  - auto.
  - exfalso. subst X. inversion Fy; subst. eapply HX; eauto.
  - exfalso. subst Y. inversion Fx; subst. eapply HY; eauto.
  - injection E as <- E. inversion Fx; subst. inversion Fy; subst.
    destruct (IH y X Y) as [-> ->]; auto.
Qed.

Lemma not_in_forall : forall (c : ascii) x, ~ In c x -> Forall (fun d => d <> c) x.
Proof.
  intros c x N. apply Forall_forall. intros d I ->. auto.
Qed.

Lemma cut_char : forall (c : ascii) x y X Y, ~ In c x -> ~ In c y ->
  x ++ c :: X = y ++ c :: Y -> x = y /\ X = Y.
Proof.
  intros c x y X Y Nx Ny E.
  destruct (cut_unique (fun d => d <> c) x y (c :: X) (c :: Y)) as [-> E2];
    auto using not_in_forall.
  - intros d r [= <- _] N. auto.
  - intros d r [= <- _] N. auto.
  - injection E2 as ->. auto.
Qed.

Lemma entity_unique : forall e c e' c' t t', In (e, c) entities -> In (e', c') entities ->
  e ++ t = e' ++ t' -> e = e' /\ c = c' /\ t = t'.
Proof.
  intros e c e' c' t t' I I' E.
  assert (e = e' /\ t = t') as [-> ->].
  { destruct (entity_shape _ _ I) as [r [-> [N _]]].
    destruct (entity_shape _ _ I') as [r' [-> [N' _]]].
    change ("&"%char :: (r ++ b ";") ++ t = "&"%char :: (r' ++ b ";") ++ t') in E.
    injection E as E. rewrite <- !app_assoc in E.
    destruct (cut_char ";" r r' t t') as [-> ->]; auto. }
  repeat split; auto.
  simpl in I, I'.
  destruct I as [I|[I|[I|[I|[I|[]]]]]]; injection I as <- <-;
  destruct I' as [I'|[I'|[I'|[I'|[I'|[]]]]]]; congruence || (injection I'; discriminate) || auto.
Qed.

Lemma entity_head : forall e c, In (e, c) entities -> exists r, e = "&"%char :: r.
Proof. intros e c I. destruct (entity_shape _ _ I) as [r [-> _]]. eauto. Qed.

Lemma escaped_unique : forall t s1, Escaped t s1 -> forall s2, Escaped t s2 -> s1 = s2.
Proof.
  induction 1 as [|e c t s I E IH|c t s N E IH]; intros s2 H2.
  - inversion H2 as [|e' c' t' s' I' E' Q1 Q2|]; auto.
    destruct (entity_head _ _ I') as [r ->]. discriminate.
  - inversion H2 as [Q1 Q2|e' c' t' s' I' E' Q1 Q2|c' t' s' N' E' Q1 Q2].
    + destruct (entity_head _ _ I) as [r ->]. discriminate.
    + destruct (entity_unique _ _ _ _ _ _ I' I Q1) as [-> [-> ->]]. f_equal; auto.
    + exfalso. destruct (entity_head _ _ I) as [r ->]. injection Q1 as Q _. apply N'. rewrite ?Q, <- ?Q. simpl; auto 10.
  - inversion H2 as [|e' c' t' s' I' E' Q1 Q2|c' t' s' N' E' Q1 Q2].
    + exfalso. destruct (entity_head _ _ I') as [r ->]. injection Q1 as Q _. apply N. rewrite ?Q, <- ?Q. simpl; auto 10.
    + f_equal; auto.
Qed.

Lemma escape_inj : forall s1 s2, escape_xml s1 = escape_xml s2 -> s1 = s2.
Proof.
  intros s1 s2 E. eapply escaped_unique; [apply escape_escaped|].
  rewrite E. apply escape_escaped.
Qed.

Lemma escape_no_markup : forall c s, In c [ "<"%char; ">"%char; DQ; "'"%char ] ->
  ~ In c (escape_xml s).
Proof.
  intros c s I. pose proof (escape_escaped s) as E. revert E.
  generalize (escape_xml s) as t. intros t E. induction E as [|e d t s Ie E IH|d t s N E IH]; auto.
  - intro J. apply in_app_or in J. destruct J as [J|J]; [|auto].
    simpl in Ie.
    destruct Ie as [Q|[Q|[Q|[Q|[Q|[]]]]]]; injection Q as <- <-; simpl in I, J; intuition (subst; discriminate).
  - intros [->|J]; auto. apply N. simpl in *; tauto.
Qed.

Lemma escape_utf8 : forall s, utf8 s -> utf8 (escape_xml s).
Proof.
  assert (A : forall c, is_cont c = true -> escape_xml_byte c = [c]).
  { intros c K. unfold escape_xml_byte.
    repeat match goal with |- context [ch c ?d] =>
      let E := fresh in destruct (ch c d) eqn:E; [apply ch_eq in E; subst; discriminate K|] end.
    reflexivity. }
  assert (B : forall c, between 128 255 c = true -> escape_xml_byte c = [c]).
  { intros c K. unfold escape_xml_byte.
    repeat match goal with |- context [ch c ?d] =>
      let E := fresh in destruct (ch c d) eqn:E; [apply ch_eq in E; subst; discriminate K|] end.
    reflexivity. }
  intros s U. induction U as [|c s H U IH]; [constructor|].
  unfold escape_xml in *. rewrite flat_map_app. apply utf8_app2; auto.
  destruct (utf8_char_shape _ H) as (k & ks & -> & _ & FK & [[L ->]|[L _]]).
  - simpl. rewrite app_nil_r. unfold escape_xml_byte.
    repeat match goal with |- context [ch k ?d] =>
      let E := fresh in destruct (ch k d) eqn:E;
        [rewrite <- (app_nil_r (b _)); repeat (apply utf8_ascii_cons; [vm_compute; lia|]); constructor|] end.
    rewrite <- (app_nil_r [k]). apply utf8_app; [exact H|constructor].
  - assert (flat_map escape_xml_byte (k :: ks) = k :: ks) as ->.
    { simpl. rewrite B.
      - simpl. f_equal. clear - A FK. induction FK as [|x l Hx F IHl]; auto.
        simpl. rewrite A; auto. simpl. f_equal. auto.
      - apply between_iff. pose proof (nat_ascii_bounded k). lia. }
    rewrite <- (app_nil_r (k :: ks)). apply utf8_app; [exact H|constructor].
Qed.

(** ** The grammar is unambiguous *)

Lemma name_char_not : forall c, name_char c = true ->
  c <> ">"%char /\ c <> "="%char /\ ~ blank_char c /\ c <> "/"%char /\ c <> "<"%char.
Proof.
  intros c. destruct c as [[] [] [] [] [] [] [] []]; vm_compute; intro H;
    try discriminate H; repeat split; try discriminate; intuition discriminate.
Qed.
Lemma name_start_char : forall c, name_start c = true -> name_char c = true.
Proof. intros c H. unfold name_char. rewrite H. reflexivity. Qed.
Lemma name_start_not : forall c, name_start c = true ->
  c <> "/"%char /\ c <> "!"%char /\ c <> "?"%char /\ ~ blank_char c.
Proof.
  intros c. destruct c as [[] [] [] [] [] [] [] []]; vm_compute; intro H;
    try discriminate H; repeat split; try discriminate; intuition discriminate.
Qed.

Lemma is_name_inv : forall s, is_name s = true ->
  exists c r, s = c :: r /\ name_start c = true /\ Forall (fun c => name_char c = true) s.
Proof.
  intros [|c r] H; [discriminate|]. simpl in H. apply andb_true_iff in H. destruct H as [H1 H2].
  exists c, r. repeat split; auto. constructor; auto using name_start_char.
  apply Forall_forall. apply forallb_forall. exact H2.
Qed.

(** What can follow a name. *)
Definition ends_name (X : bytes) : Prop :=
  exists c r, X = c :: r /\ name_char c = false.

Lemma name_unique : forall n1 n2 X Y, n1 ++ X = n2 ++ Y -> is_name n1 = true -> is_name n2 = true ->
  ends_name X -> ends_name Y -> n1 = n2 /\ X = Y.
Proof.
  intros n1 n2 X Y E H1 H2 [c [r [-> Hc]]] [d [s [-> Hd]]].
  destruct (is_name_inv _ H1) as [_ [_ [_ [_ F1]]]].
  destruct (is_name_inv _ H2) as [_ [_ [_ [_ F2]]]].
  apply (cut_unique (fun c => name_char c = true)); auto.
  - intros x y [= <- _] H. congruence.
  - intros x y [= <- _] H. congruence.
Qed.

Lemma blank_not_name : forall c, blank_char c -> name_char c = false.
Proof.
  intros c H. destruct (name_char c) eqn:E; auto. destruct (name_char_not _ E) as [_ [_ [N _]]]. tauto.
Qed.
Lemma blank_not_gt : forall c, blank_char c -> c <> ">"%char.
Proof. intros c [->|[->|[->| ->]]]; discriminate. Qed.

Lemma attrs_end : forall at_ l X, Attrs at_ l -> ends_name (at_ ++ b ">" ++ X).
Proof.
  intros at_ l X A. inversion A as [|w k v t l' Nw Fw Hk Hv A']; subst.
  - exists ">"%char, X. auto.
  - destruct w as [|c w]; [congruence|]. inversion Fw; subst.
    eexists c, _. split; [reflexivity|]. auto using blank_not_name.
Qed.

Lemma plain_no_dq : forall v, plain_value v = true -> ~ In DQ v.
Proof.
  intros v H I. unfold plain_value in H. rewrite forallb_forall in H. specialize (H _ I).
  discriminate H.
Qed.

Lemma attrs_unique : forall at1 l1, Attrs at1 l1 -> forall at2 l2 X Y, Attrs at2 l2 ->
  at1 ++ b ">" ++ X = at2 ++ b ">" ++ Y -> at1 = at2 /\ l1 = l2 /\ X = Y.
Proof.
  induction 1 as [|w k v t l Nw Fw Hk Hv A IH]; intros at2 l2 X Y A2 E;
    inversion A2 as [|w2 k2 v2 t2 l2' Nw2 Fw2 Hk2 Hv2 A2']; subst.
  - simpl in E. injection E as ->. auto.
  - exfalso. destruct w2 as [|c w2]; [congruence|]. simpl in E. injection E as <- _.
    inversion Fw2; subst. eapply blank_not_gt; eauto.
  - exfalso. destruct w as [|c w]; [congruence|]. simpl in E. injection E as -> _.
    inversion Fw; subst. eapply blank_not_gt; eauto.
  - rewrite <- !app_assoc in E.
    destruct (is_name_inv _ Hk) as [c [r [Ek [Sk _]]]].
    destruct (is_name_inv _ Hk2) as [c2 [r2 [Ek2 [Sk2 _]]]].
    destruct (cut_unique blank_char w w2 _ _ E Fw Fw2) as [-> E2].
    + intros x y Q. rewrite Ek in Q. injection Q as <- _. apply name_start_not in Sk. tauto.
    + intros x y Q. rewrite Ek2 in Q. injection Q as <- _. apply name_start_not in Sk2. tauto.
    + destruct (name_unique k k2 _ _ E2 Hk Hk2) as [-> E3];
        [eexists _, _; split; [reflexivity|reflexivity]..|].
      injection E3 as E3. simpl in E3.
      destruct (cut_char DQ v v2 _ _ (plain_no_dq _ Hv) (plain_no_dq _ Hv2) E3) as [-> E4].
      destruct (IH t2 l2' X Y A2' E4) as [-> [-> ->]]. auto.
Qed.

Section Unique.
Variable norm : bytes -> bytes.
Variable void : bytes -> bool.
Notation Content := (Content norm void).

(** What can follow content: the end or a closing tag. *)
Definition stop (X : bytes) : Prop := X = [] \/ exists r, X = b "</" ++ r.

Lemma stop_cons : forall c X, stop (c :: X) -> c = "<"%char /\ exists r, X = "/"%char :: r.
Proof. intros c X [H|[r H]]; [discriminate|]. injection H as -> ->. eauto. Qed.

Lemma stop_lt : forall c n X, stop (b "<" ++ (c :: n) ++ X) -> c = "/"%char.
Proof. intros c n X H. apply stop_cons in H. destruct H as [_ [r H]]. injection H as -> _. auto. Qed.

Lemma content_unique_aux : forall p i1, Content p i1 -> forall q i2 X Y, Content q i2 ->
  stop X -> stop Y -> p ++ X = q ++ Y -> p = q /\ i1 = i2 /\ X = Y.
Proof.
  induction 1 as [|c t l N1 N2 C IH|e c t l I C IH
                 |n1 n2 at_ attrs body kids t l H1 H2 HN HV A CB IHB C IH
                 |n1 at_ attrs t l H1 HV A C IH
                 |c text t l Hc Ht C IH];
    intros q i2 X Y C2 SX SY E;
    inversion C2 as [|c' t' l' N1' N2' C'|e' c' t' l' I' C'
                 |n1' n2' at_' attrs' body' kids' t' l' H1' H2' HN' HV' A' CB' C'
                 |n1' at_' attrs' t' l' H1' HV' A' C'
                 |c' text' t' l' Hc' Ht' C']; subst.
  (* nil *)
  - auto.
  - simpl in E. subst X. apply stop_cons in SX. destruct SX as [-> _]. congruence.
  - destruct (entity_head _ _ I') as [r ->]. simpl in E. subst X.
    apply stop_cons in SX. destruct SX as [? _]. discriminate.
  - exfalso. destruct (is_name_inv _ H1') as [c [r [-> [S _]]]]. rewrite <- !app_assoc in E.
    simpl in E. subst X. change (stop (b "<" ++ (c :: r) ++ (at_' ++ b ">" ++ body' ++ b "</" ++ n2' ++ b ">" ++ t' ++ Y))) in SX. apply stop_lt in SX.
    subst c. discriminate.
  - exfalso. destruct (is_name_inv _ H1') as [c [r [-> [S _]]]]. rewrite <- !app_assoc in E.
    simpl in E. subst X. change (stop (b "<" ++ (c :: r) ++ (at_' ++ b ">" ++ t' ++ Y))) in SX. apply stop_lt in SX.
    subst c. discriminate.
  - exfalso. rewrite <- !app_assoc in E. simpl in E. subst X. change (stop (b "<" ++ (c' :: text') ++ (b ">" ++ t' ++ Y))) in SX.
    apply stop_lt in SX. subst c'. destruct Hc'; discriminate.
  (* char *)
  - simpl in E. subst Y. apply stop_cons in SY. destruct SY as [-> _]. congruence.
  - simpl in E. injection E as <- E. destruct (IH _ _ _ _ C' SX SY E) as [-> [-> ->]]. auto.
  - exfalso. destruct (entity_head _ _ I') as [r ->]. simpl in E. injection E as -> _. congruence.
  - exfalso. simpl in E. injection E as -> _. congruence.
  - exfalso. simpl in E. injection E as -> _. congruence.
  - exfalso. simpl in E. injection E as -> _. congruence.
  (* entity *)
  - exfalso. destruct (entity_head _ _ I) as [r ->]. simpl in E. subst Y.
    apply stop_cons in SY. destruct SY as [? _]. discriminate.
  - exfalso. destruct (entity_head _ _ I) as [r ->]. simpl in E. injection E as <- _. congruence.
  - rewrite <- !app_assoc in E. destruct (entity_unique _ _ _ _ _ _ I I' E) as [-> [-> E2]].
    destruct (IH _ _ _ _ C' SX SY E2) as [-> [-> ->]]. auto.
  - exfalso. destruct (entity_head _ _ I) as [r ->]. simpl in E. discriminate.
  - exfalso. destruct (entity_head _ _ I) as [r ->]. simpl in E. discriminate.
  - exfalso. destruct (entity_head _ _ I) as [r ->]. simpl in E. discriminate.
  (* elem *)
  - exfalso. destruct (is_name_inv _ H1) as [c [r [-> [S _]]]]. rewrite <- !app_assoc in E.
    simpl in E. subst Y. change (stop (b "<" ++ (c :: r) ++ (at_ ++ b ">" ++ body ++ b "</" ++ n2 ++ b ">" ++ t ++ X))) in SY. apply stop_lt in SY.
    subst c. discriminate.
  - exfalso. simpl in E. injection E as <- _. congruence.
  - exfalso. destruct (entity_head _ _ I') as [r ->]. simpl in E. discriminate.
  - rewrite <- !app_assoc in E. apply app_inv_head in E.
    destruct (name_unique n1 n1' _ _ E H1 H1') as [-> E2]; [eapply attrs_end; eauto..|].
    destruct (attrs_unique _ _ A _ _ _ _ A' E2) as [-> [-> E3]].
    assert (SB : forall n s, stop (b "</" ++ n ++ s)) by (intros; right; eauto).
    destruct (IHB _ _ _ _ CB' (SB _ _) (SB _ _) E3) as [-> [-> E4]].
    apply app_inv_head in E4.
    destruct (name_unique n2 n2' _ _ E4 H2 H2') as [-> E5];
      [eexists _, _; split; reflexivity..|].
    apply app_inv_head in E5.
    destruct (IH _ _ _ _ C' SX SY E5) as [-> [-> ->]]. auto.
  - exfalso. rewrite <- !app_assoc in E. apply app_inv_head in E.
    destruct (name_unique n1 n1' _ _ E H1 H1') as [-> E2]; [eapply attrs_end; eauto..|].
    congruence.
  - exfalso. rewrite <- !app_assoc in E. apply app_inv_head in E.
    destruct (is_name_inv _ H1) as [d [r [-> [S _]]]]. simpl in E. injection E as <- _.
    apply name_start_not in S. intuition.
  (* void *)
  - exfalso. destruct (is_name_inv _ H1) as [c [r [-> [S _]]]]. rewrite <- !app_assoc in E.
    simpl in E. subst Y. change (stop (b "<" ++ (c :: r) ++ (at_ ++ b ">" ++ t ++ X))) in SY. apply stop_lt in SY.
    subst c. discriminate.
  - exfalso. simpl in E. injection E as <- _. congruence.
  - exfalso. destruct (entity_head _ _ I') as [r ->]. simpl in E. discriminate.
  - exfalso. rewrite <- !app_assoc in E. apply app_inv_head in E.
    destruct (name_unique n1 n1' _ _ E H1 H1') as [-> E2]; [eapply attrs_end; eauto..|].
    congruence.
  - rewrite <- !app_assoc in E. apply app_inv_head in E.
    destruct (name_unique n1 n1' _ _ E H1 H1') as [-> E2]; [eapply attrs_end; eauto..|].
    destruct (attrs_unique _ _ A _ _ _ _ A' E2) as [-> [-> E3]].
    destruct (IH _ _ _ _ C' SX SY E3) as [-> [-> ->]]. auto.
  - exfalso. rewrite <- !app_assoc in E. apply app_inv_head in E.
    destruct (is_name_inv _ H1) as [d [r [-> [S _]]]]. simpl in E. injection E as <- _.
    apply name_start_not in S. intuition.
  (* decl *)
  - exfalso. rewrite <- !app_assoc in E. simpl in E. subst Y.
    change (stop (b "<" ++ (c :: text) ++ (b ">" ++ t ++ X))) in SY.
    apply stop_lt in SY. subst c. destruct Hc; discriminate.
  - exfalso. simpl in E. injection E as <- _. congruence.
  - exfalso. destruct (entity_head _ _ I') as [r ->]. simpl in E. discriminate.
  - exfalso. rewrite <- !app_assoc in E. apply app_inv_head in E.
    destruct (is_name_inv _ H1') as [d [r [-> [S _]]]]. simpl in E. injection E as <- _.
    apply name_start_not in S. intuition.
  - exfalso. rewrite <- !app_assoc in E. apply app_inv_head in E.
    destruct (is_name_inv _ H1') as [d [r [-> [S _]]]]. simpl in E. injection E as <- _.
    apply name_start_not in S. intuition.
  - rewrite <- !app_assoc in E. apply app_inv_head in E. simpl in E. injection E as <- E.
    destruct (cut_char ">" text text' _ _ Ht Ht' E) as [-> E2].
    destruct (IH _ _ _ _ C' SX SY E2) as [-> [-> ->]]. auto.
Qed.

Lemma content_unique : forall s i1 i2, Content s i1 -> Content s i2 -> i1 = i2.
Proof.
  intros s i1 i2 C1 C2.
  destruct (content_unique_aux s i1 C1 s i2 [] [] C2) as [_ [E _]]; auto; left; reflexivity.
Qed.

(** ** Building content *)

Lemma content_app : forall s i, Content s i -> forall t l, Content t l -> Content (s ++ t) (i ++ l).
Proof.
  induction 1 as [|c t l N1 N2 C IH|e c t l I C IH
                 |n1 n2 at_ attrs body kids t l H1 H2 HN HV A CB IHB C IH
                 |n1 at_ attrs t l H1 HV A C IH
                 |c text t l Hc Ht C IH]; intros t2 l2 C2.
  - exact C2.
  - simpl. apply co_char; auto.
  - rewrite <- app_assoc. simpl. apply co_entity; auto.
  - rewrite <- !app_assoc. simpl app at 9. apply (co_elem norm void n1 n2 at_ attrs body kids); auto.
  - rewrite <- !app_assoc. apply (co_void norm void n1 at_ attrs); auto.
  - rewrite <- !app_assoc. apply (co_decl norm void c text); auto.
Qed.

Lemma content_escaped : forall t s, Escaped t s -> Content t (chars s).
Proof.
  induction 1 as [|e c t s I E IH|c t s N E IH]; simpl.
  - constructor.
  - apply co_entity; auto.
  - apply co_char; auto; intros ->; apply N; simpl; auto 10.
Qed.

Lemma content_blank : forall w, Forall blank_char w -> Content w (chars w).
Proof.
  induction 1 as [|c w H F IH]; simpl; [constructor|].
  apply co_char; auto; destruct H as [->|[->|[->| ->]]]; discriminate.
Qed.

Lemma content_elem : forall n1 n2 at_ attrs body kids,
    is_name n1 = true -> is_name n2 = true -> norm n1 = norm n2 ->
    void (norm n1) = false ->
    Attrs at_ attrs -> Content body kids ->
    Content (b "<" ++ n1 ++ at_ ++ b ">" ++ body ++ b "</" ++ n2 ++ b ">")
            [Elem (norm n1) attrs kids].
Proof.
  intros. rewrite <- (app_nil_r (b ">")) at 2.
  apply (co_elem norm void n1 n2 at_ attrs body kids); auto. constructor.
Qed.

Lemma content_void : forall n1 at_ attrs,
    is_name n1 = true -> void (norm n1) = true -> Attrs at_ attrs ->
    Content (b "<" ++ n1 ++ at_ ++ b ">") [Elem (norm n1) attrs []].
Proof.
  intros. rewrite <- (app_nil_r (b ">")).
  apply (co_void norm void n1 at_ attrs); auto. constructor.
Qed.

Lemma content_decl : forall c text, c = "!"%char \/ c = "?"%char -> ~ In ">"%char text ->
    Content (b "<" ++ (c :: text) ++ b ">") [Decl (c :: text)].
Proof.
  intros. rewrite <- (app_nil_r (b ">")).
  apply (co_decl norm void c text); auto. constructor.
Qed.
End Unique.

(** ** The XML formatter *)

Lemma xml_attrs_ok : forall l s, xml_attributes l = Ok s ->
  legal_attrs (fst (split_attrs l)) = true ->
  Attrs s (fst (split_attrs l)) /\ snd (split_attrs l) = drop_attributes l.
Proof.
  induction l as [|n l IH]; intros s H L.
  - injection H as <-. split; [constructor|reflexivity].
  - destruct n; try (injection H as <-; split; [constructor|reflexivity]).
    cbn [xml_attributes] in H. destruct (xml_attribute (Attr keyword n st ws)) as [x| | | |] eqn:E; try discriminate H.
    cbn [bind] in H. destruct (xml_attributes l) as [rest| | | |] eqn:E2; try discriminate H. injection H as <-.
    cbn [xml_attribute] in E. destruct (atomic n) as [a|] eqn:Ea; try discriminate E. injection E as <-.
    assert (Q : split_attrs (Attr keyword n st ws :: l) =
                (let '(at_, kids) := split_attrs l in ((keyword, a_val a) :: at_, kids))).
    { destruct n; try discriminate Ea; injection Ea as ->; reflexivity. }
    rewrite Q in *. destruct (split_attrs l) as [at_ kids]. cbn [fst snd] in *.
    cbn [legal_attrs forallb fst snd] in L. apply andb_true_iff in L as [L1 L2].
    apply andb_true_iff in L1 as [L1 L3].
    destruct (IH rest eq_refl L2) as [A D]. split; [|exact D].
    change (Attrs (b " " ++ (keyword ++ b "=" ++ [DQ] ++ a_val a ++ [DQ]) ++ rest) ((keyword, a_val a) :: at_)).
    rewrite <- !app_assoc. apply attrs_cons; auto; [discriminate|].
    constructor; [unfold blank_char; auto|constructor].
Qed.

Lemma no_gt_in : forall s, no_gt s = true -> ~ In ">"%char s.
Proof.
  intros s H I. unfold no_gt in H. apply negb_true_iff in H.
  assert (has ">" s = true) as Q by (apply has_iff; auto). unfold has in Q. congruence.
Qed.

Lemma xml_decl_ok : forall l s, xml_declaration l = Ok s ->
  forallb legal_decl_part l = true -> s = flat_map decl_part_xml l /\ ~ In ">"%char s.
Proof.
  pose proof no_gt_in as NG.
  induction l as [|n l IH]; intros s H L.
  - injection H as <-. split; auto.
  - cbn [forallb] in L. apply andb_true_iff in L as [L1 L2]. cbn [xml_declaration] in H.
    destruct (symbolic n) as [a|] eqn:E.
    + destruct (xml_declaration l) as [r| | | |]; try discriminate H. injection H as <-.
      destruct (IH r eq_refl L2) as [-> N].
      assert (decl_part_xml n = a_val a /\ no_gt (a_val a) = true) as [Q1 Q2].
      { destruct n; try discriminate E; injection E as ->; auto. }
      cbn [flat_map]. rewrite Q1. split; auto. intro I. apply in_app_or in I as [I|I]; auto.
      eapply NG; eauto.
    + destruct n; try discriminate H.
      destruct (xml_attribute (Attr keyword n st ws)) as [x| | | |] eqn:Ex; try discriminate H.
      cbn [bind] in H. destruct (xml_declaration l) as [r| | | |]; try discriminate H. injection H as <-.
      destruct (IH r eq_refl L2) as [-> N].
      cbn [xml_attribute] in Ex. destruct (atomic n) as [a|] eqn:Ea; try discriminate Ex. injection Ex as <-.
      assert (Q : decl_part_xml (Attr keyword n st ws) = b " " ++ keyword ++ b "=" ++ [DQ] ++ a_val a ++ [DQ] /\
                  no_gt keyword = true /\ no_gt (a_val a) = true).
      { destruct n; try discriminate Ea; injection Ea as ->; simpl in L1; apply andb_true_iff in L1; tauto. }
      destruct Q as [Q1 [Q2 Q3]]. cbn [flat_map]. rewrite Q1. split.
      * simpl. rewrite <- !app_assoc. simpl. rewrite <- !app_assoc. reflexivity.
      * pose proof (NG _ Q2). pose proof (NG _ Q3). intro I. simpl in I. rewrite !in_app_iff in I. simpl in I.
        rewrite ?in_app_iff in I. simpl in I. intuition discriminate.
Qed.

Lemma closing_ok : forall tag w ew kids,
  closing_ws tag w ew (on_next_line kids) = before_close tag w ew kids.
Proof.
  intros tag w [|c ew] [|k kids]; reflexivity.
Qed.

Lemma blank_kept : forall f w, Forall blank_char w -> Forall blank_char (kept f w).
Proof. intros f w H. unfold kept. destruct (f && _); auto. Qed.

Lemma blank_before_close : forall tag w ew kids, Forall blank_char w -> Forall blank_char ew ->
  Forall blank_char (before_close tag w ew kids).
Proof.
  intros tag w [|c ew] [|k kids] H1 H2; simpl; auto;
    match goal with |- context[if ?x then _ else _] => destruct x end; auto.
Qed.

Lemma ws_fields_head : forall n, Forall (Forall blank_char) (ws_fields n) ->
  Forall blank_char (leading_ws n).
Proof. intros []; simpl; intro H; inversion H; auto. Qed.

Lemma ws_fields_list : forall ns s ew es w, Forall (Forall blank_char) (ws_fields (Lst ns s ew es w)) ->
  Forall blank_char w /\ Forall blank_char ew /\ Forall (fun n => Forall (Forall blank_char) (ws_fields n)) ns.
Proof.
  intros ns s ew es w H. simpl in H. inversion H as [|? ? H1 H2]; subst. inversion H2 as [|? ? H3 H4]; subst.
  repeat split; auto. apply Forall_forall. intros n I.
  rewrite Forall_forall in *. intros x J. apply H4. apply in_flat_map. eauto.
Qed.

Section XmlSound.
Variable norm : bytes -> bytes.
Variable void : bytes -> bool.
Variable ok : bytes -> bool.
Hypothesis ok_void : forall t, ok t = true -> void (norm t) = false.
Notation Content := (Content norm void).

Lemma xml_node_content : forall n first s,
  xml_node_ws (kept first (leading_ws n)) n = Ok s ->
  legal_xml ok n = true -> Forall (Forall blank_char) (ws_fields n) ->
  Content s (items_xml norm first n).
Proof.
  induction n as [a|a|a|a|ns st ew es w IH|k v st w _] using node_ind'; intros first s H L B;
    try discriminate H.
  1-3: injection H as <-; apply content_app;
    [apply content_blank, blank_kept, (ws_fields_head _ B)|apply content_escaped, escape_escaped].
  destruct ns as [|[a| | | | |] rest]; try discriminate H.
  destruct (ws_fields_list _ _ _ _ _ B) as [Bw [Be Bk]].
  cbn [leading_ws] in *. cbn [items_xml leading_ws].
  cbn [xml_node_ws] in H. cbn [legal_xml] in L.
  destruct (a_val a) as [|c tag] eqn:Et; [discriminate H|].
  change (starts_decl (c :: tag)) with (ch c "!" || ch c "?") in *.
  destruct (ch c "!" || ch c "?") eqn:Ec.
  - destruct (xml_declaration rest) as [body| | | |] eqn:Ed; try discriminate H.
    cbn [bind] in H. injection H as <-.
    apply andb_true_iff in L as [L1 L2].
    destruct (xml_decl_ok _ _ Ed L2) as [-> NG].
    apply content_app; [apply content_blank, blank_kept; auto|].
    assert (NT : ~ In ">"%char (c :: tag)).
    { apply no_gt_in; auto. }
    match goal with |- Content ?x _ => replace x
      with (b "<" ++ (c :: tag ++ flat_map decl_part_xml rest ++ decl_end_xml (c :: tag)) ++ b ">") end.
    + change ((c :: tag) ++ flat_map decl_part_xml rest ++ decl_end_xml (c :: tag))
        with (c :: tag ++ flat_map decl_part_xml rest ++ decl_end_xml (c :: tag)).
      apply content_decl.
      * apply orb_true_iff in Ec as [Ec|Ec]; apply ch_eq in Ec; auto.
      * intro I. apply in_app_or in I as [I|I]; [apply NT; right; auto|].
        apply in_app_or in I as [I|I]; [auto|].
        apply orb_true_iff in Ec as [Ec|Ec]; apply ch_eq in Ec; subst c; simpl in I; intuition discriminate.
    + apply orb_true_iff in Ec as [Ec|Ec]; apply ch_eq in Ec; subst c; simpl; rewrite <- !app_assoc; reflexivity.
  - rewrite <- Et in H. destruct (xml_attributes rest) as [attrs| | | |] eqn:Ea; try discriminate H. cbn [bind] in H.
    apply andb_true_iff in L as [L L4]. apply andb_true_iff in L as [L L3].
    apply andb_true_iff in L as [L1 L2].
    destruct (xml_attrs_ok _ _ Ea L3) as [A D].
    match type of H with bind ?k _ = _ => destruct k as [kids| | | |] eqn:Ek; try discriminate H end.
    cbn [bind] in H. injection H as <-.
    apply content_app; [apply content_blank, blank_kept; auto|].
    rewrite Et. rewrite D. rewrite closing_ok.
    assert (CK : forall fr kids, (fix go (front : bool) (l : list node) : res bytes :=
                     match l with
                     | [] => Ok []
                     | m :: l' =>
                         if front && is_attribute m then go true l' else
                         let w := leading_ws m in
                         let* x := xml_node_ws (if front && negb (has LF w) then [] else w) m in
                         let* xs := go false l' in
                         Ok (x ++ xs)
                     end) fr rest = Ok kids ->
            Content kids ((fix go (first : bool) (l : list node) : list item :=
             match l with
             | [] => []
             | m :: l' =>
                 if first && is_attribute m then go true l'
                 else items_xml norm first m ++ go false l'
             end) fr rest)).
    { clear - IH L4 Bk. revert IH L4 Bk. induction rest as [|m rest IHr]; intros IH L4 Bk fr kids H.
      - injection H as <-. constructor.
      - inversion IH as [|? ? _ IH']; subst. inversion IH' as [|? ? IHm IHrest]; subst.
        inversion Bk as [|? ? B0 Bk']; subst. inversion Bk' as [|? ? Bm Brest]; subst.
        cbn [forallb] in L4. apply andb_true_iff in L4 as [Lm Lrest].
        assert (IHr' := IHr (Forall_cons _ (Forall_inv IH) IHrest) Lrest (Forall_cons _ B0 Brest)).
        destruct (fr && is_attribute m) eqn:Ef; [apply IHr'; exact H|].
        cbv zeta in H.
        match type of H with bind ?k _ = _ => destruct k as [x| | | |] eqn:Ex; try discriminate H end.
        cbn [bind] in H.
        match type of H with bind ?k _ = _ => destruct k as [xs| | | |] eqn:Exs; try discriminate H end.
        cbn [bind] in H. injection H as <-.
        apply content_app; [apply IHm; auto|apply IHr'; exact Exs]. }
    rewrite (app_assoc kids).
    apply content_elem; auto.
    apply content_app; [apply CK; exact Ek|].
    apply content_blank, blank_before_close; auto using blank_kept.
Qed.
End XmlSound.

Lemma xml_ws_set : forall w w' n, xml_node_ws w (set_ws w' n) = xml_node_ws w n.
Proof. intros w w' []; reflexivity. Qed.
Lemma leading_set : forall w n, leading_ws (set_ws w n) = w.
Proof. intros w []; reflexivity. Qed.

(** The formatter on adjusted children, as a loop with a flag. *)
Lemma xml_gen_adjust : forall l, xml_gen (adjust_first l) =
  match l with
  | [] => Ok []
  | n :: l' => let* x := xml_node_ws (kept true (leading_ws n)) n in
               let* xs := concat_res (map xml_node l') in Ok (x ++ xs)
  end.
Proof.
  intros [|n l]; [reflexivity|]. unfold xml_gen. cbn [adjust_first map concat_res].
  unfold kept. cbn [andb]. change (existsb (ch LF)) with (has LF).
  destruct (has LF (leading_ws n)); [reflexivity|].
  unfold xml_node at 1. rewrite leading_set, xml_ws_set. reflexivity.
Qed.

Lemma xml_node_kept : forall n, xml_node n = xml_node_ws (kept false (leading_ws n)) n.
Proof. reflexivity. Qed.

Definition item_loop (f : bool -> node -> list item) :=
  fix go (first : bool) (l : list node) : list item :=
    match l with
    | [] => []
    | m :: l' => if first && is_attribute m then go true l' else f first m ++ go false l'
    end.
Lemma item_loop_false : forall f l, item_loop f false l = flat_map (f false) l.
Proof. induction l; simpl; congruence. Qed.
Lemma item_loop_true : forall f l, item_loop f true l =
  match drop_attributes l with [] => [] | n :: l' => f true n ++ flat_map (f false) l' end.
Proof.
  induction l as [|n l IH]; [reflexivity|].
  destruct n; simpl; rewrite ?item_loop_false; auto.
Qed.

Lemma drop_forall : forall (P : node -> Prop) l, Forall P l -> Forall P (drop_attributes l).
Proof. induction 1 as [|n l H F IH]; [constructor|]. destruct n; simpl; auto. Qed.

Section XmlList.
Variable norm : bytes -> bytes.
Variable void : bytes -> bool.
Variable ok : bytes -> bool.
Hypothesis ok_void : forall t, ok t = true -> void (norm t) = false.
Notation Content := (Content norm void).

Lemma xml_list_content : forall t s, concat_res (map xml_node t) = Ok s ->
  Forall (fun n => legal_xml ok n = true) t ->
  Forall (fun n => Forall (Forall blank_char) (ws_fields n)) t ->
  Content s (flat_map (items_xml norm false) t).
Proof.
  induction t as [|n t IH]; intros s H L B.
  - injection H as <-. constructor.
  - cbn [map concat_res] in H. rewrite xml_node_kept in H.
    destruct (xml_node_ws _ n) as [x| | | |] eqn:Ex; try discriminate H. cbn [bind] in H.
    destruct (concat_res _) as [xs| | | |]; try discriminate H. injection H as <-.
    inversion L; subst. inversion B; subst.
    apply content_app; [eapply xml_node_content; eauto|]. apply IH; auto.
Qed.
End XmlList.

(** ** The HTML formatter *)

Lemma html_attrs_ok : forall l s, html_attributes l = Ok s ->
  legal_attrs (fst (split_attrs l)) = true ->
  Forall (fun n => Forall (Forall blank_char) (ws_fields n)) l ->
  Attrs s (fst (split_attrs l)) /\ snd (split_attrs l) = drop_attributes l.
Proof.
  induction l as [|n l IH]; intros s H L B.
  - injection H as <-. split; [constructor|reflexivity].
  - destruct n; try (injection H as <-; split; [constructor|reflexivity]).
    cbn [html_attributes] in H. destruct (atomic n) as [a|] eqn:Ea; try discriminate H.
    destruct (html_attributes l) as [rest| | | |] eqn:E2; try discriminate H. injection H as <-.
    assert (Q : split_attrs (Attr keyword n st ws :: l) =
                (let '(at_, kids) := split_attrs l in ((keyword, a_val a) :: at_, kids))).
    { destruct n; try discriminate Ea; injection Ea as ->; reflexivity. }
    rewrite Q in *. destruct (split_attrs l) as [at_ kids]. cbn [fst snd] in *.
    cbn [legal_attrs forallb fst snd] in L. apply andb_true_iff in L as [L1 L2].
    apply andb_true_iff in L1 as [L1 L3]. inversion B as [|? ? Bn Bl]; subst.
    destruct (IH rest eq_refl L2 Bl) as [A D]. split; [|exact D].
    apply attrs_cons; auto.
    + destruct ws; discriminate.
    + apply ws_fields_head in Bn. cbn [leading_ws] in Bn. destruct ws; auto.
      constructor; [unfold blank_char; auto|constructor].
Qed.

Lemma html_decl_ok : forall l s, html_declaration l = Ok s ->
  forallb legal_decl_part l = true ->
  s = flat_map (fun n => match n with Sym v | Num v => b " " ++ a_val v | _ => [] end) l /\ ~ In ">"%char s.
Proof.
  induction l as [|n l IH]; intros s H L.
  - injection H as <-. split; auto.
  - cbn [forallb] in L. apply andb_true_iff in L as [L1 L2]. cbn [html_declaration] in H.
    destruct (symbolic n) as [a|] eqn:E; try discriminate H.
    destruct (html_declaration l) as [r| | | |]; try discriminate H. injection H as <-.
    destruct (IH r eq_refl L2) as [-> N].
    assert (Q : match n with Sym v | Num v => b " " ++ a_val v | _ => [] end = b " " ++ a_val a
                /\ no_gt (a_val a) = true).
    { destruct n; try discriminate E; injection E as ->; auto. }
    destruct Q as [Q1 Q2]. cbn [flat_map]. rewrite Q1. split; [rewrite <- app_assoc; reflexivity|].
    intros [I|I]; [discriminate I|]. apply in_app_or in I as [I|I]; auto.
    eapply no_gt_in; eauto.
Qed.

Lemma lower_name_char : forall c, name_char c = true -> name_char (lower c) = true.
Proof. intros c. destruct c as [[] [] [] [] [] [] [] []]; vm_compute; auto. Qed.
Lemma lower_name_start : forall c, name_start c = true -> name_start (lower c) = true.
Proof. intros c. destruct c as [[] [] [] [] [] [] [] []]; vm_compute; auto. Qed.
Lemma lower_name : forall s, is_name s = true -> is_name (to_lower s) = true.
Proof.
  intros [|c s] H; [discriminate|]. simpl in *. apply andb_true_iff in H as [H1 H2].
  apply andb_true_iff. split; [apply lower_name_start; auto|].
  rewrite forallb_forall in *. intros x I. apply in_map_iff in I as [y [<- I]].
  apply lower_name_char; auto.
Qed.
Lemma lower_lower : forall c, lower (lower c) = lower c.
Proof. intros c. destruct c as [[] [] [] [] [] [] [] []]; vm_compute; auto. Qed.
Lemma to_lower_lower : forall s, to_lower (to_lower s) = to_lower s.
Proof. induction s; simpl; [reflexivity|]. rewrite lower_lower. congruence. Qed.

Section HtmlSound.
Variable printable : bytes -> bool.
Variable sources : nat -> bytes.
Notation html_node_ws := (html_node_ws printable sources).

Lemma html_node_content : forall n first s,
  html_node_ws (kept first (leading_ws n)) n = Ok s ->
  legal_html n = true -> Forall (Forall blank_char) (ws_fields n) ->
  HtmlContent s (items_html first n).
Proof.
  unfold HtmlContent.
  induction n as [a|a|a|a|ns st ew es w IH|k v st w _] using node_ind'; intros first s H L B;
    try discriminate H; try discriminate L.
  1-3: injection H as <-; apply content_app;
    [apply content_blank, blank_kept, (ws_fields_head _ B)|apply content_escaped, escape_escaped].
  destruct ns as [|[a| | | | |] rest]; try discriminate H.
  destruct (ws_fields_list _ _ _ _ _ B) as [Bw [Be Bk]].
  cbn [leading_ws] in *. cbn [items_html leading_ws].
  cbn [Format.html_node_ws] in H. cbn [legal_html] in L.
  destruct (to_lower (a_val a)) as [|c tag] eqn:Et; [discriminate H|].
  change (starts_bang (c :: tag)) with (ch c "!") in *.
  destruct (ch c "!") eqn:Ec.
  - destruct (html_declaration rest) as [body| | | |] eqn:Ed; try discriminate H.
    cbn [bind] in H. injection H as <-.
    apply andb_true_iff in L as [L1 L2].
    destruct (html_decl_ok _ _ Ed L2) as [-> NG].
    apply content_app; [apply content_blank, blank_kept; auto|].
    apply no_gt_in in L1. apply ch_eq in Ec. subst c.
    destruct (a_val a) as [|c v]; [discriminate Et|]. simpl in Et. injection Et as Ec _.
    assert (c = "!"%char) as ->.
    { destruct c as [[] [] [] [] [] [] [] []]; vm_compute in Ec; congruence. }
    rewrite <- app_comm_cons.
    match goal with |- Content _ _ ?x _ => replace x with
      (b "<" ++ ("!"%char :: v ++ flat_map (fun n => match n with Sym v | Num v => b " " ++ a_val v | _ => [] end) rest) ++ b ">") end.
    + apply content_decl; auto. rewrite in_app_iff. simpl in L1. tauto.
    + simpl. rewrite <- app_assoc. reflexivity.
  - destruct (html_attributes rest) as [attrs| | | |] eqn:Ea; try discriminate H. cbn [bind] in H.
    apply andb_true_iff in L as [L L4]. apply andb_true_iff in L as [L L3].
    apply andb_true_iff in L as [L1 L2].
    inversion Bk as [|? ? Bh Brest]; subst.
    destruct (html_attrs_ok _ _ Ea L3 Brest) as [A D].
    change (html_void (c :: tag)) with (mem (c :: tag) void_elements).
    rewrite <- Et in *. set (nm := a_val a) in *. clearbody nm.
    destruct (mem (to_lower nm) void_elements) eqn:Ev.
    + destruct (drop_attributes rest); [|discriminate H]. injection H as <-.
      apply content_app; [apply content_blank, blank_kept; auto|].
      apply content_void; auto.
    + set (tg := to_lower nm) in *.
      match type of H with bind ?k _ = _ => destruct k as [body| | | |] eqn:Ek; try discriminate H end.
      cbn [bind] in H. injection H as <-.
      rewrite <- app_assoc.
      apply content_app; [apply content_blank, blank_kept; auto|].
      rewrite D, closing_ok. rewrite <- ?app_assoc.
      rewrite (app_assoc body). subst tg.
      match goal with |- Content _ _ ?x _ => replace x with
        (b "<" ++ nm ++ attrs ++ b ">" ++
         (body ++ before_close (to_lower nm) (kept first w) ew (drop_attributes rest)) ++
         b "</" ++ to_lower nm ++ b ">")
      end.
      2: { cbn. rewrite <- !app_assoc. reflexivity. }
      apply content_elem; auto using lower_name, to_lower_lower.
      apply content_app.
      2: apply content_blank, blank_before_close; auto using blank_kept.
      unfold foreign_text in L2. cbn [existsb map] in L2.
      repeat rewrite negb_orb in L2. rewrite !andb_true_iff, !negb_true_iff in L2.
      destruct L2 as (F1 & F2 & F3 & F4 & F5 & _).
      rewrite F1, F2, F3, F4, F5 in Ek. cbn [orb] in Ek.
      cbn [existsb] in L4 |- *. rewrite orb_false_r in *.
      destruct (beq (to_lower nm) (b "math") || beq (to_lower nm) (b "svg")).
      * change (Content to_lower html_void body (item_loop (items_xml to_lower) true rest)).
        rewrite item_loop_true. rewrite xml_gen_adjust in Ek.
        assert (LF' : Forall (fun n => legal_xml (fun t => negb (html_void (to_lower t))) n = true) rest)
          by (apply Forall_forall, forallb_forall; exact L4).
        apply drop_forall in LF', Brest.
        destruct (drop_attributes rest) as [|k l]; [injection Ek as <-; constructor|].
        inversion LF'; subst. inversion Brest; subst.
        assert (OV : forall t, negb (html_void (to_lower t)) = true -> html_void (to_lower t) = false)
          by (intros t; apply negb_true_iff).
        destruct (xml_node_ws _ k) as [x| | | |] eqn:Ex; try discriminate Ek. cbn [bind] in Ek.
        destruct (concat_res _) as [xs| | | |] eqn:Exs; try discriminate Ek. injection Ek as <-.
        apply content_app.
        -- apply (xml_node_content to_lower html_void _ OV); auto.
        -- apply (xml_list_content to_lower html_void _ OV); auto.
      * match type of Ek with ?g true rest = _ =>
          match goal with |- Content _ _ _ (?h true rest) =>
            enough (CK : forall fr kids, g fr rest = Ok kids -> Content to_lower html_void kids (h fr rest));
            [exact (CK true body Ek)|]
          end end. clear - IH L4 Brest.
        assert (IH' := Forall_inv_tail IH). clear IH. revert IH' L4 Brest.
        induction rest as [|m rest IHr]; intros IH L4 Bk fr kids H.
        -- injection H as <-. constructor.
        -- inversion IH as [|? ? IHm IHrest]; subst.
           inversion Bk as [|? ? Bm Brest]; subst.
           cbn [forallb] in L4. apply andb_true_iff in L4 as [Lm Lrest].
           specialize (IHr IHrest Lrest Brest).
           destruct (fr && is_attribute m) eqn:Ef; [apply IHr; exact H|].
           cbv zeta in H.
           match type of H with bind ?k _ = _ => destruct k as [x| | | |] eqn:Ex; try discriminate H end.
           cbn [bind] in H.
           match type of H with bind ?k _ = _ => destruct k as [xs| | | |] eqn:Exs; try discriminate H end.
           cbn [bind] in H. injection H as <-.
           apply content_app; [apply IHm; auto|apply IHr; exact Exs].
Qed.

Lemma html_list_content : forall t s, html_gen printable sources t = Ok s ->
  Forall (fun n => legal_html n = true) t ->
  Forall (Forall blank_char) (flat_map ws_fields t) ->
  HtmlContent s (flat_map (items_html false) t).
Proof.
  unfold html_gen.
  induction t as [|n t IH]; intros s H L B.
  - injection H as <-. constructor.
  - cbn [map concat_res] in H. unfold html_node at 1 in H.
    destruct (html_node_ws _ n) as [x| | | |] eqn:Ex; try discriminate H. cbn [bind] in H.
    destruct (concat_res _) as [xs| | | |]; try discriminate H. injection H as <-.
    inversion L; subst. cbn [flat_map] in B. apply Forall_app in B as [B1 B2].
    apply content_app; [|apply IH; auto].
    apply html_node_content; auto.
Qed.
End HtmlSound.

Lemma xml_gen_content : forall t s, xml_gen t = Ok s ->
  Forall (fun n => legal_xml (fun _ => true) n = true) t ->
  Forall (Forall blank_char) (flat_map ws_fields t) ->
  XmlContent s (flat_map (items_xml (fun n => n) false) t).
Proof.
  intros t s H L B. eapply xml_list_content with (ok := fun _ => true); eauto.
  rewrite Forall_forall in *. intros n I. apply Forall_forall. intros w J.
  apply B. apply in_flat_map. eauto.
Qed.
