(** * Where generation errors point to *)

From Coq Require Import String List Ascii Bool Arith Lia.
From Verif Require Import Text Utf8 Res Lexer Ast Debug Format Report Spec_tree Spec_markup Spec_output
  Spec_report Proofs_text Proofs_ast Proofs_markup Proofs_css Proofs_output.
Import ListNotations.

(** The error, if any, is a generation error at a site that satisfies [P], announced under one of the names [L]. *)
Definition fails_in {A} (L : list bytes) (P : site -> Prop) (r : res A) : Prop :=
  match r with
  | Err (EErr k st) =>
      P st /\ exists markup kinds, In markup L /\ In (markup, kinds) announced /\ In k kinds /\
        origin_of k = OGenerator markup
  | _ => True
  end.
Definition css_names : list bytes := [b "CSS-value"; b "CSS"].
Definition xml_names : list bytes := [b "XML"].
Definition html_names : list bytes := map fst announced.
Lemma fails_more {A} L L' P (r : res A) : incl L L' -> fails_in L P r -> fails_in L' P r.
Proof.
  intros I. destruct r as [x|[k st]| | |]; auto. intros (H & m & ks & M & X). split; [exact H|].
  exists m, ks. split; [apply I, M|exact X].
Qed.
Lemma css_in_html : incl css_names html_names.
Proof. intros x [<-|[<-|[]]]; cbn; auto 10. Qed.
Lemma xml_in_html : incl xml_names html_names.
Proof. intros x [<-|[]]; cbn; auto 10. Qed.

Section Fails.
Variable P : site -> Prop.
Notation ok := (fun n => Forall P (node_sites n)).
Notation oks := (fun ns => Forall P (flat_map node_sites ns)).

Lemma fi_bind : forall L A B (r : res A) (k : A -> res B),
  fails_in L P r -> (forall x, fails_in L P (k x)) -> fails_in L P (bind r k).
Proof. intros L A B [] k H1 H2; simpl in *; auto. Qed.

Lemma ok_site : forall n, ok n -> P (node_site n).
Proof. intros n H. destruct n; simpl in *; inversion H; auto. Qed.
Lemma oks_cons : forall n ns, oks (n :: ns) -> ok n /\ oks ns.
Proof. intros n ns H. simpl in H. apply Forall_app in H. exact H. Qed.
Lemma ok_lst : forall ns st ew es w, ok (Lst ns st ew es w) -> P st /\ P es /\ oks ns.
Proof. intros ns st ew es w H. simpl in H. inversion H as [|? ? H1 H2]. inversion H2; auto. Qed.
Lemma ok_attr : forall k v st w, ok (Attr k v st w) -> P st /\ ok v.
Proof. intros k v st w H. simpl in H. inversion H; auto. Qed.
Lemma ok_set : forall w n, ok n -> ok (set_ws w n).
Proof. intros w n H. destruct n; exact H. Qed.
Lemma ok_adjust : forall l, oks l -> oks (adjust_first l).
Proof.
  intros [|n l] H; [exact H|]. apply oks_cons in H as [H1 H2]. simpl. apply Forall_app. split; [|exact H2].
  destruct (has LF (leading_ws n)); [exact H1|apply ok_set; exact H1].
Qed.
Lemma ok_drop : forall l, oks l -> oks (drop_attributes l).
Proof. induction l as [|n l IH]; intros H; [exact H|]. destruct n; try exact H. apply oks_cons in H as [_ H]. auto. Qed.
Lemma ok_skip : forall n l, oks l -> oks (skipn n l).
Proof. induction n as [|n IH]; intros [|m l] H; try exact H. simpl. apply IH. apply oks_cons in H as [_ H]. exact H. Qed.

Ltac gen := split; [|refine (ex_intro _ _ (ex_intro _ _ (conj _ (conj _ (conj _ eq_refl))))); cbn [In map fst announced html_names xml_names css_names]; auto 10; cbn [In]; auto 10].
Ltac done := intros; exact I.

Section Quote.
Variable printable : bytes -> bool.
Notation css_value := (css_value printable).

Lemma fi_css_value : forall n, ok n -> fails_in css_names P (css_value n).
Proof.
  induction n as [a|a|a|a|ns st ew es w IH|k v st w IHv] using node_ind'; intros H; try exact I.
  2: { gen. apply ok_attr in H. apply H. }
  destruct ns as [|hd tl]; [exact I|]. apply ok_lst in H as (_ & _ & H). apply oks_cons in H as [H1 H2].
  inversion IH as [|? ? I1 I2]; subst.
  cbn [Format.css_value]. apply fi_bind; [apply I1; exact H1|]. intros ?. apply fi_bind; [|done].
  clear - I2 H2. induction I2 as [|n l Hn F IHl]; [exact I|]. apply oks_cons in H2 as [H1 H2].
  apply fi_bind; [apply Hn; exact H1|]. intros ?. apply fi_bind; [apply IHl; exact H2|done].
Qed.

Lemma fi_css_oneline : forall l, oks l -> fails_in css_names P (css_oneline printable l).
Proof.
  induction l as [|n l IH]; intros H; [exact I|]. apply oks_cons in H as [H1 H2]. cbn [css_oneline].
  apply fi_bind; [|intros ?; apply fi_bind; [apply IH; exact H2|done]].
  destruct n; try (apply fi_bind; [apply fi_css_value; exact H1|done]).
  apply fi_bind; [apply fi_css_value|done]. apply ok_attr in H1. apply H1.
Qed.

Lemma fi_css_props : forall l, oks l -> fails_in css_names P (css_props printable l).
Proof.
  induction l as [|n l IH]; intros H; [exact I|]. apply oks_cons in H as [H1 H2].
  destruct n; try (gen; exact (ok_site _ H1)).
  cbn [css_props]. apply fi_bind; [apply fi_css_value; apply ok_attr in H1; apply H1|].
  intros ?. apply fi_bind; [apply IH; exact H2|done].
Qed.

Lemma fi_css_rule : forall n, ok n -> fails_in css_names P (css_rule printable n).
Proof.
  induction n as [a|a|a|a|ns st ew es w IH|k v st w IHv] using node_ind'; intros H; try exact I.
  destruct ns as [|hd args]; [exact I|]. apply ok_lst in H as (_ & _ & H). rewrite css_rule_eq.
  destruct (atomic hd) as [a|]; [|exact I].
  pose proof H as H'. apply oks_cons in H' as [H1 H2].
  destruct (line_rule (a_val a)); [apply fi_bind; [apply fi_css_oneline; exact H2|done]|].
  destruct (nesting_rule (a_val a)).
  - apply fi_bind; [|done]. inversion IH as [|? ? _ IHa]; subst. clear - IHa H2.
    generalize false as fl. induction IHa as [|m l Hm F IH]; intro fl; [exact I|].
    apply oks_cons in H2 as [H1 H2]. specialize (IH H2).
    assert (V : forall n (k : bytes -> bytes -> bytes) fl', ok n -> fails_in css_names P
       (let* y := css_value n in let* rest := css_args printable (css_rule printable) fl' l in Ok (k y rest))).
    { intros n k fl' Hn. apply fi_bind; [apply fi_css_value; exact Hn|]. intros ?.
      apply fi_bind; [apply IH|done]. }
    destruct m; cbn [css_args]; try (destruct fl; [gen; exact (ok_site _ H1)|]).
    1-4: apply (V _ (fun y rest => y ++ b " " ++ rest)); exact H1.
    + apply fi_bind; [apply Hm; exact H1|]. intros ?. apply fi_bind; [apply IH|done].
    + apply (V _ (fun y rest => b "(" ++ keyword ++ b ": " ++ y ++ b ") " ++ rest)). apply ok_attr in H1. apply H1.
  - apply fi_bind; [apply fi_css_props; apply ok_skip; exact H|done].
Qed.

Lemma fi_css_gen : forall t, oks t -> fails_in css_names P (css_gen printable t).
Proof.
  induction t as [|n t IH]; intros H; [exact I|]. apply oks_cons in H as [H1 H2].
  destruct n; try (gen; exact (ok_site _ H1)). cbn [Format.css_gen].
  apply fi_bind; [apply fi_css_rule; exact H1|]. intros ?. apply fi_bind; [apply IH; exact H2|done].
Qed.

Lemma fi_xml_attribute : forall n, ok n -> fails_in xml_names P (xml_attribute n).
Proof.
  intros n H. destruct n; try exact I. simpl. apply ok_attr in H as [_ H]. destruct (atomic n); [exact I|].
  gen. exact (ok_site _ H).
Qed.
Lemma fi_xml_attributes : forall l, oks l -> fails_in xml_names P (xml_attributes l).
Proof.
  induction l as [|n l IH]; intros H; [exact I|]. apply oks_cons in H as [H1 H2]. destruct n; try exact I.
  cbn [xml_attributes]. apply fi_bind; [apply fi_xml_attribute; exact H1|]. intros ?.
  apply fi_bind; [apply IH; exact H2|done].
Qed.
Lemma fi_xml_declaration : forall l, oks l -> fails_in xml_names P (xml_declaration l).
Proof.
  induction l as [|n l IH]; intros H; [exact I|]. apply oks_cons in H as [H1 H2]. cbn [xml_declaration].
  destruct (symbolic n); [apply fi_bind; [apply IH; exact H2|done]|].
  destruct n; try (gen; exact (ok_site _ H1)).
  apply fi_bind; [apply fi_xml_attribute; exact H1|]. intros ?. apply fi_bind; [apply IH; exact H2|done].
Qed.

Lemma fi_xml_node : forall n w, ok n -> fails_in xml_names P (xml_node_ws w n).
Proof.
  induction n as [a|a|a|a|ns st ew es lw IH|k v st lw IHv] using node_ind'; intros w H; try exact I.
  1,3: gen; exact (ok_site _ H).
  apply ok_lst in H as (HS & _ & H). destruct ns as [|hd rest]; [gen; exact HS|].
  apply oks_cons in H as [H1 H2].
  destruct hd as [a| | | | |]; try (gen; exact (ok_site _ H1)).
  cbn [xml_node_ws]. destruct (a_val a) as [|c tag]; [exact I|].
  destruct (ch c "!" || ch c "?"); [apply fi_bind; [apply fi_xml_declaration; exact H2|done]|].
  apply fi_bind; [apply fi_xml_attributes; exact H2|]. intros ?. apply fi_bind; [|done].
  inversion IH as [|? ? _ IHr]; subst. clear - IHr H2.
  match goal with |- fails_in _ _ (?g true rest) => enough (A : forall fr, fails_in xml_names P (g fr rest)) by apply A end.
  induction IHr as [|m l Hm F IH]; intro fr; [exact I|]. apply oks_cons in H2 as [H1 H2]. specialize (IH H2).
  destruct (fr && is_attribute m); [apply IH|]. cbv zeta.
  apply fi_bind; [apply Hm; exact H1|]. intros ?. apply fi_bind; [apply IH|done].
Qed.

Lemma fi_concat : forall L (f : node -> res bytes) t, (forall n, ok n -> fails_in L P (f n)) -> oks t ->
  fails_in L P (concat_res (map f t)).
Proof.
  intros L f t F. induction t as [|n t IH]; intros H; [exact I|]. apply oks_cons in H as [H1 H2].
  cbn [map concat_res]. apply fi_bind; [apply F; exact H1|]. intros ?. apply fi_bind; [apply IH; exact H2|done].
Qed.
Lemma fi_xml_gen : forall t, oks t -> fails_in xml_names P (xml_gen t).
Proof. intros t H. apply fi_concat; [|exact H]. intros n. apply fi_xml_node. Qed.

Lemma fi_html_declaration : forall l, oks l -> fails_in html_names P (html_declaration l).
Proof.
  induction l as [|n l IH]; intros H; [exact I|]. apply oks_cons in H as [H1 H2]. cbn [html_declaration].
  destruct (symbolic n); [apply fi_bind; [apply IH; exact H2|done]|gen; exact (ok_site _ H1)].
Qed.
Lemma fi_html_attributes : forall l, oks l -> fails_in html_names P (html_attributes l).
Proof.
  induction l as [|n l IH]; intros H; [exact I|]. apply oks_cons in H as [H1 H2]. destruct n; try exact I.
  cbn [html_attributes]. apply ok_attr in H1 as [_ H1]. destruct (atomic n); [|gen; exact (ok_site _ H1)].
  apply fi_bind; [apply IH; exact H2|done].
Qed.

Variable sources : nat -> bytes.
Lemma fi_html_node : forall n w, ok n -> fails_in html_names P (html_node_ws printable sources w n).
Proof.
  induction n as [a|a|a|a|ns st ew es lw IH|k v st lw IHv] using node_ind'; intros w H; try exact I.
  2: gen; exact (ok_site _ H).
  apply ok_lst in H as (HS & _ & H). destruct ns as [|hd rest]; [gen; exact HS|].
  apply oks_cons in H as [H1 H2].
  destruct hd as [a| | | | |]; try (gen; exact (ok_site _ H1)).
  cbn [html_node_ws]. destruct (to_lower (a_val a)) as [|c tag]; [exact I|].
  destruct (ch c "!"); [apply fi_bind; [apply fi_html_declaration; exact H2|done]|].
  apply fi_bind; [apply fi_html_attributes; exact H2|]. intros ?. cbv zeta.
  pose proof (ok_drop _ H2) as HD. pose proof (ok_adjust _ HD) as HA.
  destruct (mem (c :: tag) void_elements).
  { destruct (drop_attributes rest); [exact I|]. apply oks_cons in HD as [HD _]. gen. exact (ok_site _ HD). }
  apply fi_bind; [|done].
  destruct (beq (c :: tag) (b "pre")).
  { unfold raw_text, str_slice. destruct (drop_attributes rest); [exact I|]. destruct (negb _); [exact I|].
    destruct (_ <? _); [exact I|]. match goal with |- context[if ?x then _ else _] => destruct x end; exact I. }
  destruct (beq (c :: tag) (b "textarea") || beq (c :: tag) (b "title")); [exact I|].
  destruct (beq (c :: tag) (b "style")).
  { assert (G : fails_in html_names P (let* css := css_gen printable (adjust_first (drop_attributes rest)) in Ok (LF :: css))).
    { apply fi_bind; [apply (fails_more _ _ _ _ css_in_html), fi_css_gen; exact HA|done]. }
    destruct (drop_attributes rest) as [|k l]; [exact G|]. destruct k; try exact G.
    destruct l; [exact I|]. apply oks_cons in HD as [HD _]. gen. exact (ok_site _ HD). }
  destruct (beq (c :: tag) (b "script")); [exact I|].
  destruct (beq (c :: tag) (b "math") || beq (c :: tag) (b "svg")); [apply (fails_more _ _ _ _ xml_in_html), fi_xml_gen; exact HA|].
  inversion IH as [|? ? _ IHr]; subst. clear - IHr H2.
  match goal with |- fails_in _ _ (?g true rest) => enough (A : forall fr, fails_in html_names P (g fr rest)) by apply A end.
  induction IHr as [|m l Hm F IH]; intro fr; [exact I|]. apply oks_cons in H2 as [H1 H2]. specialize (IH H2).
  destruct (fr && is_attribute m); [apply IH|]. cbv zeta.
  apply fi_bind; [apply Hm; exact H1|]. intros ?. apply fi_bind; [apply IH|done].
Qed.
Lemma fi_html_gen : forall t, oks t -> fails_in html_names P (html_gen printable sources t).
Proof. intros t H. apply fi_concat; [|exact H]. intros n. apply fi_html_node. Qed.

Lemma fi_css_document : forall t, oks t -> fails_in css_names P (css_document printable t).
Proof. intros [|n t] H; [exact I|]. apply fi_css_gen. exact H. Qed.
Lemma fi_xml_document : forall t, oks t -> fails_in xml_names P (xml_document t).
Proof. intros [|n t] H; [exact I|]. apply fi_bind; [apply fi_xml_gen; exact H|done]. Qed.
Lemma fi_html_document : forall t, oks t -> fails_in html_names P (html_document printable sources t).
Proof. intros [|n t] H; [exact I|]. apply fi_bind; [apply fi_html_gen; exact H|done]. Qed.
End Quote.
End Fails.
