(** * Proofs about the HTML of a tree *)

From Coq Require Import String List Ascii Bool Arith NArith Lia.
From Verif Require Import Text Utf8 Res Ast Debug Format Spec_tree Spec_markup Spec_css Spec_element.
From Verif Require Import Proofs_text Proofs_ast Proofs_markup Proofs_white Proofs_sheet Proofs_element.
Import ListNotations.

Lemma mem_iff x l : mem x l = true <-> In x l.
Proof.
  unfold mem. rewrite existsb_exists. split.
  - intros (y & I & E). apply beq_eq in E as ->. exact I.
  - intros I. exists x. split; [exact I|apply beq_refl].
Qed.
Lemma mem_false x l : mem x l = false <-> ~ In x l.
Proof. rewrite <- mem_iff. destruct (mem x l); split; intros H; try reflexivity; try discriminate. contradiction. Qed.

Lemma lower_bang c : ch (lower c) "!" = ch c "!".
Proof. destruct c as [[] [] [] [] [] [] [] []]; reflexivity. Qed.

Lemma slice_lies s i j t : str_slice s i j = Ok t <-> lies s i j t.
Proof.
  assert (B : forall k, is_boundary s k = true <-> between_characters s k).
  { intros k. unfold is_boundary, between_characters.
    assert (N : forall c r, skipn k s = c :: r -> nth_error s k = Some c /\ k < length s).
    { revert s. induction k as [|k IH]; intros s c r H; destruct s as [|d s]; try discriminate H.
      - injection H as -> ->. split; [reflexivity|cbn; lia].
      - destruct (IH s c r H) as [N L]. split; [exact N|cbn; lia]. }
    destruct (skipn k s) as [|c r] eqn:K.
    - pose proof (skipn_length k s) as L. rewrite K in L. cbn in L. split.
      + intros H. apply Nat.leb_le in H. split; [exact H|]. intros c N'.
        assert (k < length s) by (apply nth_error_Some; congruence). lia.
      + intros [H _]. apply Nat.leb_le. exact H.
    - destruct (N c r eq_refl) as [N1 N2]. split.
      + intros H. split; [lia|]. intros d D. rewrite N1 in D. injection D as <-. apply negb_true_iff. exact H.
      + intros [_ H]. apply negb_true_iff. exact (H c N1). }
  unfold str_slice, lies. split.
  - destruct (i <=? j) eqn:E1; [|discriminate]. destruct (j <=? length s) eqn:E2; [|discriminate].
    destruct (is_boundary s i) eqn:E3; [|discriminate]. destruct (is_boundary s j) eqn:E4; [|discriminate].
    cbn [andb]. intros H. injection H as <-. apply Nat.leb_le in E1, E2.
    split; [apply B; exact E3|]. split; [apply B; exact E4|].
    exists (firstn i s), (skipn j s).
    assert (Q : slice i j s = firstn (j - i) (skipn i s)) by reflexivity.
    assert (L : length (firstn i s) = i) by (rewrite firstn_length; lia).
    assert (L' : length (slice i j s) = j - i) by (rewrite Q, firstn_length, skipn_length; lia).
    split; [|split; [exact L|lia]].
    rewrite Q. rewrite <- (firstn_skipn i s) at 1. f_equal.
    rewrite <- (firstn_skipn (j - i) (skipn i s)) at 1. f_equal.
    assert (J : j = i + (j - i)) by lia. revert J. generalize (j - i) as d. intros d ->. clear.
    revert s. induction i as [|i IH]; intros s; [reflexivity|]. destruct s; [destruct d; reflexivity|apply IH].
  - intros (B1 & B2 & x & y & -> & L1 & L2). apply B in B1, B2. rewrite B1, B2.
    assert (E1 : i <=? j = true) by (apply Nat.leb_le; lia).
    assert (E2 : j <=? length (x ++ t ++ y) = true) by (apply Nat.leb_le; rewrite !app_length; lia).
    rewrite E1, E2. cbn [andb]. f_equal. unfold slice. subst i. rewrite skipn_app, skipn_all, Nat.sub_diag. cbn [app skipn].
    replace (j - length x) with (length t) by lia. rewrite firstn_app, firstn_all, Nat.sub_diag. apply app_nil_r.
Qed.
Lemma slice_cases s i j : (exists t, str_slice s i j = Ok t) \/ str_slice s i j = Panic PIndex.
Proof. unfold str_slice. destruct (_ && _); [left; eexists; reflexivity|right; reflexivity]. Qed.

Lemma starts_of k : length (leading_ws k) <= s_off (node_site k) ->
  starts_at k (s_off (node_site k) - length (leading_ws k) + (if starts_with (b " ") (leading_ws k) then 1 else 0)).
Proof.
  intros L. destruct (starts_with (b " ") (leading_ws k)) eqn:S.
  - apply starts_with_iff in S as [r R]. rewrite Nat.add_1_r. eapply sa_space; [exact R|lia].
  - rewrite Nat.add_0_r. eapply sa_other; [|lia]. intros r R.
    assert (starts_with (b " ") (leading_ws k) = true) by (apply starts_with_iff; exists r; exact R). congruence.
Qed.
Lemma starts_is k i : starts_at k i -> length (leading_ws k) <= s_off (node_site k) /\
  i = s_off (node_site k) - length (leading_ws k) + (if starts_with (b " ") (leading_ws k) then 1 else 0).
Proof.
  intros [r j R O|j R O]; (split; [lia|]).
  - replace (starts_with (b " ") (leading_ws k)) with true by (symmetry; apply starts_with_iff; exists r; exact R). lia.
  - destruct (starts_with (b " ") (leading_ws k)) eqn:S; [|lia]. apply starts_with_iff in S as [r S]. destruct (R r S).
Qed.

Lemma values_set_ws w n : values (set_ws w n) = values n.
Proof. destruct n as [[]|[]|[]|[]| |]; reflexivity. Qed.
Lemma values_handed kids : flat_map values (handed_on kids) = flat_map values kids.
Proof. destruct kids as [|k l]; [reflexivity|]. cbn [handed_on flat_map]. rewrite values_set_ws. reflexivity. Qed.
Lemma values_drop l : Forall utf8 (flat_map values l) -> Forall utf8 (flat_map values (drop_attributes l)).
Proof.
  induction l as [|n l IH]; [auto|]. intros H. destruct n; try exact H. cbn [drop_attributes]. apply IH.
  cbn [flat_map] in H. apply Forall_app in H. apply H.
Qed.

Section HtmlIs.
Variable printable : bytes -> bool.
Variable sources : nat -> bytes.
Notation html_node_ws := (html_node_ws printable sources).
Notation Inner := (Inner printable sources).
Notation Html := (Html printable sources).
Notation HtmlAll := (HtmlAll printable sources).
Notation NoHtml := (NoHtml printable sources).
Notation NoHtmlAll := (NoHtmlAll printable sources).

(** What the model writes inside such elements. *)
Definition other (tag : bytes) (kids : list node) (ew : bytes) (es : site) : res bytes :=
  if beq tag (b "pre") then
    raw_text sources (match kids with [] => None | k :: _ => Some k end) ew es
  else if beq tag (b "textarea") || beq tag (b "title") then
    Ok (text_gen (adjust_first kids))
  else if beq tag (b "style") then
    match kids with
    | Str s :: more =>
        match more with
        | [] => Ok (a_val s)
        | _ => Err (EErr EHtmlStyle (a_site s))
        end
    | _ => let* css := css_gen printable (adjust_first kids) in Ok (LF :: css)
    end
  else if beq tag (b "script") then
    Ok (sexp_gen printable (adjust_first kids))
  else xml_gen (adjust_first kids).

Lemma inner_tag tag kids ew es q : Inner tag kids ew es q -> In tag other_content.
Proof.
  assert (L : forall l, incl l other_content -> In tag l -> In tag other_content) by (intros l I H; apply I, H).
  intros I; destruct I; try (apply mem_iff; reflexivity);
    (eapply L; [|eassumption]; intros x [<-|[<-|[]]]; apply mem_iff; reflexivity).
Qed.
Lemma other_not_void tag : In tag other_content -> mem tag voids = false.
Proof.
  unfold other_content. cbn [map In]. intros H.
  repeat (destruct H as [<-|H]; [vm_compute; reflexivity|]). destruct H.
Qed.

Lemma nosheet_bad t q : NoSheet printable t q -> ok_or q.
Proof.
  assert (R : forall ns q, NoRule printable ns q -> ok_or q).
  { induction 1; intros s' E; try discriminate E. eapply IHNoRule. exact E. }
  intros [l ns st ew es w r s q' A N|l x r s A N]; [exact (R ns q' N)|]. intros s' E. discriminate E.
Qed.

Lemma other_style kids ew es : ~ one_string kids ->
  other (b "style") kids ew es = let* css := css_gen printable (handed_on kids) in Ok (LF :: css).
Proof.
  intros N. unfold other. change (beq (b "style") (b "pre")) with false.
  change (beq (b "style") (b "textarea") || beq (b "style") (b "title")) with false.
  change (beq (b "style") (b "style")) with true. cbn iota. rewrite handed_on_is.
  destruct kids as [|k l]; [reflexivity|]. destruct k; try reflexivity. exfalso. apply N. repeat eexists.
Qed.
Lemma other_xml tag kids ew es : In tag [b "math"; b "svg"] -> other tag kids ew es = xml_gen (handed_on kids).
Proof. rewrite <- handed_on_is. intros [<-|[<-|[]]]; reflexivity. Qed.
Lemma other_text tag kids ew es : In tag [b "textarea"; b "title"] ->
  other tag kids ew es = Ok (text_gen (handed_on kids)).
Proof. rewrite <- handed_on_is. intros [<-|[<-|[]]]; reflexivity. Qed.
Lemma other_pre kids ew es : other (b "pre") kids ew es =
  raw_text sources (match kids with [] => None | k :: _ => Some k end) ew es.
Proof. reflexivity. Qed.

Lemma inner_back tag kids ew es q : Forall utf8 (flat_map values kids) -> Inner tag kids ew es q ->
  other tag kids ew es = q.
Proof.
  intros U I. rewrite <- values_handed in U. destruct I as [ew es|k l ew es i s S A L|k l ew es S|k l ew es S L|k l ew es i S A L
    |tag kids ew es s T W|a ew es|a k l ew es|kids ew es s N R|kids ew es q N R|kids ew es s W
    |tag kids ew es s T A|tag kids ew es q T A].
  - reflexivity.
  - rewrite other_pre. unfold raw_text. rewrite S, Nat.eqb_refl. cbn [negb].
    destruct (starts_is k i A) as [G ->]. apply Nat.ltb_ge in G. rewrite G. apply slice_lies. exact L.
  - rewrite other_pre. unfold raw_text. apply Nat.eqb_neq in S. rewrite S. reflexivity.
  - rewrite other_pre. unfold raw_text. rewrite S, Nat.eqb_refl. cbn [negb]. apply Nat.ltb_lt in L. rewrite L. reflexivity.
  - rewrite other_pre. unfold raw_text. rewrite S, Nat.eqb_refl. cbn [negb].
    destruct (starts_is k i A) as [G ->]. apply Nat.ltb_ge in G. rewrite G.
    match goal with |- str_slice ?s ?i ?j = _ => destruct (slice_cases s i j) as [[t Q]|Q] end; [|exact Q].
    destruct (L t). apply slice_lies. exact Q.
  - rewrite (other_text tag kids ew es T). f_equal. apply text_of. exact W.
  - reflexivity.
  - reflexivity.
  - rewrite (other_style kids ew es N).
    rewrite (proj2 (sheet_iff printable (handed_on kids) U (Ok s)) R). reflexivity.
  - rewrite (other_style kids ew es N).
    pose proof (nosheet_bad _ _ R) as B.
    assert (Q : css_gen printable (handed_on kids) = q).
    { apply (sheet_iff printable (handed_on kids) U q). destruct q; try exact R. destruct (B a eq_refl). }
    apply bind_same; assumption.
  - change (other (b "script") kids ew es) with (@Ok bytes (sexp_gen printable (adjust_first kids))).
    rewrite handed_on_is. f_equal. apply sexp_of; assumption.
  - rewrite (other_xml tag kids ew es T). apply xml_gen_iff. exact A.
  - rewrite (other_xml tag kids ew es T). apply noxmlall_back. exact A.
Qed.

Lemma one_string_dec kids : one_string kids \/ ~ one_string kids.
Proof.
  destruct kids as [|k l]; [right; intros (a & l & H); discriminate H|].
  destruct k; try (right; intros (? & ? & H); discriminate H). left. repeat eexists.
Qed.
Lemma inner_cases tag kids ew es : In tag other_content -> Forall utf8 (flat_map values kids) ->
  exists q, Inner tag kids ew es q.
Proof.
  intros T U. rewrite <- values_handed in U. unfold other_content in T. cbn [map In] in T.
  destruct T as [<-|T].
  { destruct kids as [|k l]; [eexists; apply in_pre_none|].
    destruct (Nat.eq_dec (s_src (node_site k)) (s_src es)) as [S|S]; [|eexists; apply in_pre_foreign, S].
    destruct (le_lt_dec (length (leading_ws k)) (s_off (node_site k))) as [L|L]; [|eexists; apply in_pre_before; assumption].
    pose proof (starts_of k L) as A.
    match type of A with starts_at _ ?i => destruct (slice_cases (sources (s_src es)) i (s_off es)) as [[t Q]|Q] end.
    - eexists. eapply in_pre; [exact S|exact A|apply slice_lies, Q].
    - eexists. eapply in_pre_outside; [exact S|exact A|]. intros s H. apply slice_lies in H. congruence. }
  destruct T as [<-|T]; [eexists; apply in_text; [left; reflexivity|apply text_of; reflexivity]|].
  destruct T as [<-|T]; [eexists; apply in_text; [right; left; reflexivity|apply text_of; reflexivity]|].
  destruct T as [<-|T].
  { destruct (one_string_dec kids) as [(a & l & ->)|N].
    - destruct l as [|k l]; eexists; [apply in_style_string|apply in_style_more].
    - pose proof (proj1 (sheet_iff printable (handed_on kids) U _) eq_refl) as Q.
      destruct (css_gen printable (handed_on kids)) as [s|e|p| |]; eexists;
        solve [apply in_style; eassumption|apply in_style_fault; eassumption]. }
  destruct T as [<-|T]; [eexists; apply in_script, sexp_of; [exact U|reflexivity]|].
  assert (M : In tag [b "math"; b "svg"]) by exact T.
  pose proof (proj1 (xml_gen_iff (handed_on kids) _) eq_refl) as Q.
  destruct (xml_gen (handed_on kids)) as [s|e|p| |]; eexists;
    solve [apply in_xml; eassumption|apply in_xml_fault; eassumption].
Qed.

(** ** Attributes and declarations *)

Lemma html_attrs_back attrs ats kids : Forall2 HtmlAttribute attrs ats ->
  match kids with [] => True | k :: _ => ~ an_attribute k end -> html_attributes (attrs ++ kids) = Ok (concat ats).
Proof.
  intros F N. induction F as [|n s l ss A F IH].
  - cbn [app concat]. destruct kids as [|k l]; [reflexivity|]. apply not_attribute in N. destruct k; try reflexivity.
    discriminate N.
  - destruct A as [k v st w a W A|k v st a A]; cbn [app html_attributes]; rewrite A, IH; cbn [bind concat];
      unfold pair; rewrite <- !app_assoc; cbn [app]; rewrite <- ?app_assoc.
    + destruct w; [contradiction|reflexivity].
    + reflexivity.
Qed.
Lemma html_attrs_bad l x r ats site : Forall2 HtmlAttribute l ats -> BadValue x site ->
  html_attributes (l ++ x :: r) = Err (EErr EHtmlAttrValue site).
Proof.
  intros F [k v st w A]. induction F as [|n s l ss W F IH].
  - cbn [app html_attributes]. rewrite A. reflexivity.
  - destruct W as [k' v' st' w' a' W A'|k' v' st' a' A']; cbn [app html_attributes]; rewrite A', IH; reflexivity.
Qed.
Lemma html_attrs_of l : Forall (fun n => exists k v st w a, n = Attr k v st w /\ atomic v = Some a) l ->
  exists ats, Forall2 HtmlAttribute l ats.
Proof.
  induction 1 as [|n l (k & v & st & w & a & -> & A) F (ats & IH)]; [exists []; constructor|].
  destruct w as [|c w]; eexists; constructor; [apply ha_bare; exact A|exact IH|apply ha_spaced; [discriminate|exact A]|exact IH].
Qed.
Lemma html_words_back l ws : Forall2 HtmlWord l ws -> html_declaration l = Ok (concat ws).
Proof.
  induction 1 as [|n s l ss [n' a S] F IH]; [reflexivity|].
  cbn [html_declaration]. rewrite S, IH. cbn [bind concat]. rewrite <- app_assoc. reflexivity.
Qed.
Lemma html_words_bad l x r ws : Forall2 HtmlWord l ws -> symbolic x = None ->
  html_declaration (l ++ x :: r) = Err (EErr EHtmlDeclNode (node_site x)).
Proof.
  intros F N. induction F as [|n s l ss [n' a S] F IH]; cbn [app html_declaration]; [rewrite N; reflexivity|].
  rewrite S, IH. reflexivity.
Qed.
Lemma html_words_case l : (exists ws, Forall2 HtmlWord l ws) \/
  (exists x n r ws, l = x ++ n :: r /\ Forall2 HtmlWord x ws /\ symbolic n = None).
Proof.
  induction l as [|n l IH]; [left; exists []; constructor|].
  destruct (symbolic n) as [a|] eqn:S.
  - destruct IH as [[ws F]|(x & m & r & ws & -> & F & N)].
    + left. eexists. constructor; [constructor; exact S|exact F].
    + right. exists (n :: x), m, r, ((b " " ++ a_val a) :: ws). split; [reflexivity|].
      split; [constructor; [constructor; exact S|exact F]|exact N].
  - right. exists [], n, l, []. split; [reflexivity|]. split; [constructor|exact S].
Qed.

(** ** Nodes *)

Fixpoint html_kids (first : bool) (l : list node) : res bytes :=
  match l with
  | [] => Ok []
  | n :: l' =>
      let* x := html_node_ws (kept first (leading_ws n)) n in
      let* xs := html_kids false l' in Ok (x ++ xs)
  end.
Definition html_inner := fix go (front : bool) (l : list node) : res bytes :=
  match l with
  | [] => Ok []
  | m :: l' =>
      if front && is_attribute m then go true l' else
      let w := leading_ws m in
      let* x := html_node_ws (if front && negb (has LF w) then [] else w) m in
      let* xs := go false l' in
      Ok (x ++ xs)
  end.
Lemma html_inner_false l : html_inner false l = html_kids false l.
Proof. induction l as [|n l IH]; [reflexivity|]. cbn [html_inner html_kids andb]. rewrite IH. reflexivity. Qed.
Lemma html_inner_true l : html_inner true l = html_kids true (drop_attributes l).
Proof.
  induction l as [|n l IH]; [reflexivity|].
  destruct n; try (cbn [html_inner drop_attributes html_kids andb is_attribute attribute is_some];
    rewrite html_inner_false; reflexivity).
  exact IH.
Qed.

Lemma html_element w a c tag rest st ew es w0 : a_val a = c :: tag -> c <> "!"%char ->
  html_node_ws w (Lst (Sym a :: rest) st ew es w0) =
  (let* attrs := html_attributes rest in
   let T := to_lower (a_val a) in
   let kids := drop_attributes rest in
   if mem T voids then
     match kids with
     | [] => Ok (w ++ b "<" ++ a_val a ++ attrs ++ b ">")
     | k :: _ => Err (EErr EHtmlVoidChildren (node_site k))
     end
   else
     let* body := if mem T other_content then other T kids ew es else html_kids true kids in
     Ok (w ++ b "<" ++ a_val a ++ attrs ++ b ">" ++ body ++ before_close T w ew kids ++ b "</" ++ T ++ b ">")).
Proof.
  intros V N. cbn [Format.html_node_ws]. rewrite V. cbn [to_lower map]. rewrite lower_bang.
  destruct (ch c "!") eqn:C1; [apply ch_eq in C1; contradiction|].
  change (lower c :: map lower tag) with (to_lower (c :: tag)). rewrite <- V.
  destruct (html_attributes rest) as [attrs| | | |]; try reflexivity. cbn [bind].
  change (fix go (front : bool) (l : list node) {struct l} : res bytes := _) with html_inner.
  rewrite html_inner_true, closing_is.
  change void_elements with voids. set (T := to_lower (a_val a)). destruct (mem T voids); [reflexivity|].
  assert (Q : forall (x y : res bytes), x = y ->
    (let* body := x in Ok ((w ++ b "<" ++ a_val a ++ attrs ++ b ">") ++ body ++
       before_close T w ew (drop_attributes rest) ++ b "</" ++ T ++ b ">")) =
    (let* body := y in Ok (w ++ b "<" ++ a_val a ++ attrs ++ b ">" ++ body ++
       before_close T w ew (drop_attributes rest) ++ b "</" ++ T ++ b ">"))).
  { intros x y ->. destruct y as [body| | | |]; try reflexivity. cbn [bind]. f_equal. rewrite <- !app_assoc.
    cbn [app]. rewrite <- ?app_assoc. reflexivity. }
  apply Q. clear Q. destruct (mem T other_content) eqn:M.
  - unfold other. destruct (beq T (b "pre")) eqn:E1; [reflexivity|].
    destruct (beq T (b "textarea")) eqn:E2; [reflexivity|].
    destruct (beq T (b "title")) eqn:E3; [reflexivity|]. cbn [orb].
    destruct (beq T (b "style")) eqn:E4; [reflexivity|].
    destruct (beq T (b "script")) eqn:E5; [reflexivity|].
    destruct (beq T (b "math")) eqn:E6; [reflexivity|].
    destruct (beq T (b "svg")) eqn:E7; [reflexivity|]. exfalso.
    unfold mem, other_content in M. cbn [map existsb] in M.
    rewrite E1, E2, E3, E4, E5, E6, E7 in M. discriminate M.
  - unfold mem, other_content in M. cbn [map existsb] in M.
    repeat (apply orb_false_iff in M as [?H M]). rewrite H, H0, H1, H2, H3, H4, H5. reflexivity.
Qed.
Lemma html_decl w a tag rest st ew es w0 : a_val a = "!"%char :: tag ->
  html_node_ws w (Lst (Sym a :: rest) st ew es w0) =
  (let* body := html_declaration rest in Ok (w ++ b "<!" ++ tag ++ body ++ b ">")).
Proof. intros V. cbn [Format.html_node_ws]. rewrite V. reflexivity. Qed.

Scheme html_mut := Induction for Spec_element.Html Sort Prop
  with html_all_mut := Induction for Spec_element.HtmlAll Sort Prop.

Lemma values_comprises rest attrs kids : comprises rest attrs kids -> Forall utf8 (flat_map values rest) ->
  Forall utf8 (flat_map values kids).
Proof. intros (-> & _ & _) U. rewrite flat_map_app in U. apply Forall_app in U. apply U. Qed.

Lemma attrs_comprise (attrs : list node) ats : Forall2 HtmlAttribute attrs ats -> comprises attrs attrs [].
Proof.
  intros F. split; [symmetry; apply app_nil_r|]. split; [|exact I].
  induction F as [|n s l ss A F IH]; constructor; [destruct A; repeat eexists|exact IH].
Qed.
Lemma attrs_comprise_more (attrs : list node) ats x r : Forall2 HtmlAttribute attrs ats -> ~ an_attribute x ->
  comprises (attrs ++ x :: r) attrs (x :: r).
Proof.
  intros F N. split; [reflexivity|]. split; [|exact N].
  induction F as [|n s l ss A F IH]; constructor; [destruct A; repeat eexists|exact IH].
Qed.

Lemma html_back w n s : Html w n s -> Forall utf8 (values n) -> html_node_ws w n = Ok s.
Proof.
  induction 1 as [w n s A|w a|w a tag rest ws st ew es w0 V F|w a c tag attrs ats st ew es w0 V N M F
    |w a c tag rest attrs kids ats s st ew es w0 V N C F I
    |w a c tag rest attrs kids ats s st ew es w0 V N M O C F A IH
    | |first n l s t X IH A IHl]
    using html_mut with (P0 := fun first l s _ => Forall utf8 (flat_map values l) -> html_kids first l = Ok s);
    intros U.
  - destruct A as (a & A & E). apply escaped_is in E as ->. destruct A as [-> | [-> | ->]]; reflexivity.
  - reflexivity.
  - rewrite (html_decl w a tag rest st ew es w0 V), (html_words_back _ _ F). reflexivity.
  - pose proof (attrs_comprise attrs ats F) as C.
    rewrite (html_element w a c tag attrs st ew es w0 V N), (comprises_drop _ _ _ C).
    pose proof (html_attrs_back attrs ats [] F Logic.I) as H. rewrite app_nil_r in H. rewrite H. cbn [bind].
    cbn zeta. rewrite (proj2 (mem_iff _ _) M). reflexivity.
  - rewrite (html_element w a c tag rest st ew es w0 V N), (comprises_drop _ _ _ C).
    assert (U' : Forall utf8 (flat_map values kids)).
    { apply (values_comprises _ _ _ C). change (values (Lst (Sym a :: rest) st ew es w0)) with (a_val a :: flat_map values rest) in U.
      inversion U; assumption. }
    destruct C as (-> & F' & K). rewrite (html_attrs_back attrs ats kids F K). cbn [bind]. cbn zeta.
    rewrite (other_not_void _ (inner_tag _ _ _ _ _ I)), (proj2 (mem_iff _ _) (inner_tag _ _ _ _ _ I)).
    rewrite (inner_back _ _ _ _ _ U' I). reflexivity.
  - rewrite (html_element w a c tag rest st ew es w0 V N), (comprises_drop _ _ _ C).
    assert (U' : Forall utf8 (flat_map values kids)).
    { apply (values_comprises _ _ _ C). change (values (Lst (Sym a :: rest) st ew es w0)) with (a_val a :: flat_map values rest) in U.
      inversion U; assumption. }
    destruct C as (-> & F' & K). rewrite (html_attrs_back attrs ats kids F K). cbn [bind]. cbn zeta.
    rewrite (proj2 (mem_false _ _) M), (proj2 (mem_false _ _) O), (IH U'). reflexivity.
  - reflexivity.
  - cbn [flat_map] in U. apply Forall_app in U as [U1 U2]. cbn [html_kids]. rewrite (IH U1). cbn [bind].
    rewrite (IHl U2). reflexivity.
Qed.
Lemma html_all_back first l s : HtmlAll first l s -> Forall utf8 (flat_map values l) -> html_kids first l = Ok s.
Proof.
  induction 1 as [|first n l s t X A IH]; intros U; [reflexivity|]. cbn [flat_map] in U. apply Forall_app in U as [U1 U2].
  cbn [html_kids]. rewrite (html_back _ _ _ X U1). cbn [bind]. rewrite (IH U2). reflexivity.
Qed.
Lemma html_kids_stop first l x r s q : HtmlAll first l s -> Forall utf8 (flat_map values l) ->
  (forall w, html_node_ws w x = q) -> ok_or q -> html_kids first (l ++ x :: r) = q.
Proof.
  intros A U X N. induction A as [first|first n l s t Xn A IH]; cbn [app html_kids].
  - apply bind_same; [apply X|exact N].
  - cbn [flat_map] in U. apply Forall_app in U as [U1 U2]. rewrite (html_back _ _ _ Xn U1). cbn [bind].
    apply bind_same; [exact (IH U2)|exact N].
Qed.
Lemma nohtml_bad n q : NoHtml n q -> ok_or q.
Proof.
  induction 1 as [| | | | | | |a c tag rest attrs kids ats q st ew es w V N C F I B|]; intros s' E; try discriminate E.
  - exact (B s' E).
  - eapply IHNoHtml. exact E.
Qed.
Lemma nohtml_back n q : NoHtml n q -> Forall utf8 (values n) -> forall w, html_node_ws w n = q.
Proof.
  induction 1 as [k v st w0|st ew es w0|hd l st ew es w0 H|a l st ew es w0 V
    |a tag l x r ws st ew es w0 V F N|a c tag l x r ats site st ew es w0 V N F B
    |a c tag attrs x r ats st ew es w0 V N M F K
    |a c tag rest attrs kids ats q st ew es w0 V N C F I B
    |a c tag rest attrs kids ats l x r s q st ew es w0 V N M O C F -> A X IH]; intros U w; try reflexivity.
  - cbn [Format.html_node_ws]. destruct hd; try reflexivity. destruct (H a eq_refl).
  - cbn [Format.html_node_ws]. rewrite V. reflexivity.
  - rewrite (html_decl w a tag _ st ew es w0 V), (html_words_bad l x r ws F N). reflexivity.
  - rewrite (html_element w a c tag _ st ew es w0 V N), (html_attrs_bad l x r ats site F B). reflexivity.
  - pose proof (attrs_comprise_more attrs ats x r F K) as C.
    rewrite (html_element w a c tag _ st ew es w0 V N), (comprises_drop _ _ _ C).
    rewrite (html_attrs_back attrs ats (x :: r) F K). cbn [bind]. cbn zeta. rewrite (proj2 (mem_iff _ _) M). reflexivity.
  - rewrite (html_element w a c tag rest st ew es w0 V N), (comprises_drop _ _ _ C).
    assert (U' : Forall utf8 (flat_map values kids)).
    { apply (values_comprises _ _ _ C). change (values (Lst (Sym a :: rest) st ew es w0)) with (a_val a :: flat_map values rest) in U.
      inversion U; assumption. }
    destruct C as (-> & F' & K). rewrite (html_attrs_back attrs ats kids F K). cbn [bind]. cbn zeta.
    rewrite (other_not_void _ (inner_tag _ _ _ _ _ I)), (proj2 (mem_iff _ _) (inner_tag _ _ _ _ _ I)).
    apply bind_same; [exact (inner_back _ _ _ _ _ U' I)|exact B].
  - rewrite (html_element w a c tag rest st ew es w0 V N), (comprises_drop _ _ _ C).
    assert (U' : Forall utf8 (flat_map values (l ++ x :: r))).
    { apply (values_comprises _ _ _ C). change (values (Lst (Sym a :: rest) st ew es w0)) with (a_val a :: flat_map values rest) in U.
      inversion U; assumption. }
    destruct C as (-> & F' & K). rewrite (html_attrs_back attrs ats _ F K). cbn [bind]. cbn zeta.
    rewrite (proj2 (mem_false _ _) M), (proj2 (mem_false _ _) O).
    rewrite flat_map_app in U'. apply Forall_app in U' as [U1 U2]. cbn [flat_map] in U2. apply Forall_app in U2 as [U2 _].
    apply bind_same; [|exact (nohtml_bad x q X)].
    exact (html_kids_stop true l x r s q A U1 (IH U2) (nohtml_bad x q X)).
Qed.

Definition html_case (n : node) : Prop :=
  Forall utf8 (values n) -> forall w, (exists s, Html w n s) \/ (exists q, NoHtml n q).
Lemma html_kids_case l : Forall html_case l -> Forall utf8 (flat_map values l) -> forall first,
  (exists s, HtmlAll first l s) \/ (exists x n r s q, l = x ++ n :: r /\ HtmlAll first x s /\ NoHtml n q).
Proof.
  induction 1 as [|n l H F IH]; intros U first; [left; eexists; constructor|].
  cbn [flat_map] in U. apply Forall_app in U as [U1 U2].
  destruct (H U1 (kept first (leading_ws n))) as [[s X]|[q N]].
  - destruct (IH U2 false) as [[t A]|(x & m & r & t & q & -> & A & N)].
    + left. eexists. constructor; eassumption.
    + right. exists (n :: x), m, r, (s ++ t), q. split; [reflexivity|]. split; [constructor; assumption|exact N].
  - right. exists [], n, l, [], q. split; [reflexivity|]. split; [constructor|exact N].
Qed.

Lemma html_cases n : html_case n.
Proof.
  induction n as [a|a|a|a|ns st ew es w0 IH|k v st w0 _] using node_ind'; intros U w.
  - left. eexists. apply h_atom, (atom_text_of _ a). auto.
  - left. eexists. apply h_atom, (atom_text_of _ a). auto.
  - left. eexists. apply h_atom, (atom_text_of _ a). auto.
  - left. eexists. apply h_raw.
  - destruct ns as [|hd rest]; [right; eexists; apply nh_empty|].
    assert (D : (exists a, hd = Sym a) \/ forall a, hd <> Sym a).
    { destruct hd; try (right; intros ?; discriminate). left. eexists. reflexivity. }
    destruct D as [[a ->]|D]; [|right; eexists; apply nh_head, D].
    destruct (a_val a) as [|c tag] eqn:V; [right; eexists; apply nh_no_name, V|].
    destruct (ascii_dec c "!") as [->|N1].
    { destruct (html_words_case rest) as [[ws F]|(x & n & r & ws & -> & F & N)].
      - left. eexists. eapply h_bang; eassumption.
      - right. eexists. eapply nh_declaration; [exact V|exact F|exact N]. }
    destruct (comprises_of rest) as [attrs C].
    assert (UR : Forall utf8 (flat_map values rest)).
    { change (values (Lst (Sym a :: rest) st ew es w0)) with (a_val a :: flat_map values rest) in U. inversion U; assumption. }
    assert (UK : Forall utf8 (flat_map values (drop_attributes rest))) by exact (values_comprises _ _ _ C UR).
    destruct (attrs_case attrs (proj1 (proj2 C))) as [G|(l & x & r & site & E & G & B)].
    + destruct (html_attrs_of attrs G) as [ats F].
      destruct (mem (to_lower (a_val a)) voids) eqn:MV.
      { apply mem_iff in MV. destruct (drop_attributes rest) as [|k l] eqn:K.
        - left. eexists. destruct C as (R & _ & _). rewrite app_nil_r in R. rewrite R. eapply h_void; eassumption.
        - right. eexists. destruct C as (-> & _ & N). eapply nh_void; eassumption. }
      apply mem_false in MV.
      destruct (mem (to_lower (a_val a)) other_content) eqn:MO.
      { apply mem_iff in MO. destruct (inner_cases _ (drop_attributes rest) ew es MO UK) as [q I].
        destruct q as [s|e|p| |].
        - left. eexists. eapply h_other; eassumption.
        - right. eexists. eapply nh_other; try eassumption. intros s H. discriminate H.
        - right. eexists. eapply nh_other; try eassumption. intros s H. discriminate H.
        - right. eexists. eapply nh_other; try eassumption. intros s H. discriminate H.
        - right. eexists. eapply nh_other; try eassumption. intros s H. discriminate H. }
      apply mem_false in MO.
      assert (K : Forall html_case (drop_attributes rest)) by (apply forall_drop; inversion IH; assumption).
      destruct (html_kids_case _ K UK true) as [[s A]|(x & n & r & s & q & E & A & N)].
      * left. eexists. eapply h_element; eassumption.
      * right. eexists. eapply nh_child; eassumption.
    + destruct (html_attrs_of l G) as [ats F]. right. eexists.
      destruct C as (-> & _ & _). rewrite E, <- app_assoc. cbn [app].
      eapply nh_value; eassumption.
  - right. eexists. apply nh_attribute.
Qed.

Lemma html_iff w n : Forall utf8 (values n) -> forall r,
  html_node_ws w n = r <-> match r with Ok s => Html w n s | _ => NoHtml n r end.
Proof.
  intros U r. split.
  - intros H. destruct (html_cases n U w) as [[s X]|[q N]].
    + rewrite (html_back _ _ _ X U) in H. subst r. exact X.
    + rewrite (nohtml_back _ _ N U) in H. subst q. pose proof (nohtml_bad _ _ N) as B.
      destruct r; try exact N. destruct (B a eq_refl).
  - destruct r as [s|e|p| |]; intros H; [apply html_back; assumption| | | |]; apply nohtml_back; assumption.
Qed.

Lemma html_gen_kids t : html_gen printable sources t = html_kids false t.
Proof.
  unfold html_gen. induction t as [|n t IH]; [reflexivity|]. cbn [map concat_res html_kids]. rewrite IH. reflexivity.
Qed.
Lemma nohtmlall_back l q : NoHtmlAll l q -> Forall utf8 (flat_map values l) ->
  html_gen printable sources l = q /\ ok_or q.
Proof.
  intros [x n r s -> A N] U. split; [|exact (nohtml_bad n q N)]. rewrite html_gen_kids.
  rewrite flat_map_app in U. apply Forall_app in U as [U1 U2]. cbn [flat_map] in U2. apply Forall_app in U2 as [U2 _].
  exact (html_kids_stop false x n r s q A U1 (nohtml_back n q N U2) (nohtml_bad n q N)).
Qed.
Lemma html_gen_iff t : Forall utf8 (flat_map values t) -> forall r,
  html_gen printable sources t = r <-> match r with Ok s => HtmlAll false t s | _ => NoHtmlAll t r end.
Proof.
  intros U r. split.
  - intros H. assert (K : Forall html_case t) by (apply Forall_forall; intros; apply html_cases).
    destruct (html_kids_case t K U false) as [[s A]|(x & n & l & s & q & E & A & N)].
    + rewrite html_gen_kids, (html_all_back _ _ _ A U) in H. subst r. exact A.
    + pose proof (nhs _ _ _ q x n l s E A N) as X. destruct (nohtmlall_back _ _ X U) as [Q B].
      rewrite Q in H. subst q. destruct r; try exact X. destruct (B a eq_refl).
  - rewrite html_gen_kids. destruct r as [s|e|p| |]; intros H; [apply html_all_back; assumption| | | |];
      rewrite <- html_gen_kids; apply nohtmlall_back; assumption.
Qed.
End HtmlIs.
