(** * Proofs about the text, S-expressions, XML and HTML of a tree *)

From Coq Require Import String List Ascii Bool Arith NArith Lia.
From Verif Require Import Text Utf8 Res Ast Debug Format Spec_markup Spec_css Spec_element.
From Verif Require Import Spec_tree Proofs_text Proofs_ast Proofs_markup Proofs_white Proofs_sheet.
Import ListNotations.

(** ** Text and S-expressions *)

Scheme written_mut := Induction for Written Sort Prop
  with all_written_mut := Induction for AllWritten Sort Prop.

Section WrittenIs.
Variables string raw : bytes -> bytes -> Prop.
Variables fs fr : bytes -> bytes.
Variable good : bytes -> Prop.
Hypothesis string_is : forall v, good v -> forall s, fs v = s <-> string v s.
Hypothesis raw_is : forall v, good v -> forall s, fr v = s <-> raw v s.

Fixpoint write (n : node) : bytes :=
  match n with
  | Sym a | Num a => a_ws a ++ a_val a
  | Str a => a_ws a ++ fs (a_val a)
  | Raw a => a_ws a ++ fr (a_val a)
  | Lst nodes _ ew _ ws => ws ++ b "(" ++ flat_map write nodes ++ ew ++ b ")"
  | Attr k v _ ws => ws ++ b ":" ++ k ++ write v
  end.

Lemma write_written n : Forall good (values n) -> Written string raw n (write n).
Proof.
  induction n as [a|a|a|a|ns st ew es w IH|k v st w IH] using node_ind'; intros G; cbn [write].
  - constructor.
  - constructor.
  - constructor. apply string_is; [inversion G; assumption|reflexivity].
  - constructor. apply raw_is; [inversion G; assumption|reflexivity].
  - constructor. change (Forall good (flat_map values ns)) in G.
    induction IH as [|n l H F IHl]; cbn [flat_map] in *; [constructor|].
    apply Forall_app in G as [G1 G2]. constructor; auto.
  - constructor. apply IH. inversion G. assumption.
Qed.
Lemma all_write_written l : Forall good (flat_map values l) -> AllWritten string raw l (flat_map write l).
Proof.
  induction l as [|n l IH]; intros G; cbn [flat_map] in *; [constructor|].
  apply Forall_app in G as [G1 G2]. constructor; [apply write_written; exact G1|auto].
Qed.
Lemma written_write n s : Written string raw n s -> Forall good (values n) -> s = write n.
Proof.
  induction 1 as [a|a|a s S|a s S|k v st w s W IH|ns st ew es w s A IH| |n l s t W IH A IHl]
    using written_mut with (P0 := fun l s _ => Forall good (flat_map values l) -> s = flat_map write l);
    intros G; cbn [write flat_map] in *; try reflexivity.
  - f_equal. symmetry. apply string_is; [inversion G; assumption|exact S].
  - f_equal. symmetry. apply raw_is; [inversion G; assumption|exact S].
  - rewrite IH by (inversion G; assumption). reflexivity.
  - rewrite (IH G). reflexivity.
  - apply Forall_app in G as [G1 G2]. rewrite (IH G1), (IHl G2). reflexivity.
Qed.
Lemma all_written_write l s : AllWritten string raw l s -> Forall good (flat_map values l) -> s = flat_map write l.
Proof.
  induction 1 as [|n l s t W A IH]; cbn [flat_map]; intros G; [reflexivity|].
  apply Forall_app in G as [G1 G2]. rewrite (written_write n s W G1), (IH G2). reflexivity.
Qed.
End WrittenIs.

Lemma write_text n : write (fun v => v) (fun v => v) n = text_node n.
Proof. reflexivity. Qed.
Lemma write_sexp printable n :
  write (debug_str printable) (fun v => b "(%raw " ++ debug_str printable v ++ b ")") n = sexp_node printable n.
Proof. reflexivity. Qed.
Lemma write_display printable n :
  write (debug_str printable) (debug_str printable) n = display_node printable n.
Proof. reflexivity. Qed.
Lemma flat_map_same {A} (f g : A -> bytes) l : (forall x, f x = g x) -> flat_map f l = flat_map g l.
Proof. intros H. induction l as [|x l IH]; [reflexivity|]. cbn [flat_map]. rewrite H, IH. reflexivity. Qed.

Lemma text_of t s : text_gen t = s <-> TextOf t s.
Proof.
  assert (I : forall v : bytes, True -> forall s, v = s <-> v = s) by (intros; reflexivity).
  assert (G : Forall (fun _ => True) (flat_map values t)) by (apply Forall_forall; intros; exact Logic.I).
  unfold text_gen, TextOf. rewrite <- (flat_map_same _ _ t write_text). split.
  - intros <-. exact (all_write_written eq eq (fun v => v) (fun v => v) _ I I t G).
  - intros A. symmetry. exact (all_written_write eq eq (fun v => v) (fun v => v) _ I I t s A G).
Qed.

Lemma debug_iff printable v : utf8 v -> forall s, debug_str printable v = s <-> quoted printable v s.
Proof. intros U s. split; [intros <-; apply debug_quoted, U|symmetry; apply quoted_debug; assumption]. Qed.
Lemma debug_raw_iff printable v : utf8 v -> forall s, b "(%raw " ++ debug_str printable v ++ b ")" = s <->
  exists q, quoted printable v q /\ s = b "(%raw " ++ q ++ b ")".
Proof.
  intros U s. split.
  - intros <-. eexists. split; [apply debug_quoted, U|reflexivity].
  - intros (q & Q & ->). apply debug_iff in Q; [|exact U]. rewrite Q. reflexivity.
Qed.
Lemma sexp_of printable t : Forall utf8 (flat_map values t) -> forall s,
  sexp_gen printable t = s <-> SexpOf printable t s.
Proof.
  intros G s. unfold sexp_gen, SexpOf. rewrite <- (flat_map_same _ _ t (write_sexp printable)). split.
  - intros <-. exact (all_write_written _ _ _ _ _ (debug_iff printable) (debug_raw_iff printable) t G).
  - intros A. symmetry. exact (all_written_write _ _ _ _ _ (debug_iff printable) (debug_raw_iff printable) t s A G).
Qed.
Lemma shown_as printable n : Forall utf8 (values n) -> forall s,
  display_node printable n = s <-> ShownAs printable n s.
Proof.
  intros G s. unfold ShownAs. rewrite <- write_display. split.
  - intros <-. exact (write_written _ _ _ _ _ (debug_iff printable) (debug_iff printable) n G).
  - intros A. symmetry. exact (written_write _ _ _ _ _ (debug_iff printable) (debug_iff printable) n s A G).
Qed.

(** ** Common *)

Lemma escaped_is t v : Escaped t v -> t = escape_xml v.
Proof.
  induction 1 as [|e c t s I E IH|c t s N E IH]; [reflexivity| |].
  - cbn [escape_xml flat_map]. change (flat_map escape_xml_byte s) with (escape_xml s). rewrite <- IH.
    f_equal. clear - I. unfold entities in I. cbn [In] in I.
    repeat (destruct I as [I|I]; [injection I as <- <-; reflexivity|]). destruct I.
  - cbn [escape_xml flat_map]. change (flat_map escape_xml_byte s) with (escape_xml s). rewrite <- IH.
    change (c :: t) with ([c] ++ t). f_equal. clear - N.
    unfold escape_xml_byte. cbn [In] in N.
    repeat match goal with
    | |- context [ch c ?d] => let Q := fresh in destruct (ch c d) eqn:Q; [apply ch_eq in Q; subst c; exfalso; tauto|]; clear Q
    end. reflexivity.
Qed.

Definition ok_or {A} (r : res A) : Prop := forall s, r <> Ok s.

Lemma kept_is f w : (if f && negb (has LF w) then [] else w) = kept f w.
Proof. reflexivity. Qed.

Lemma an_attribute_is n : is_attribute n = true <-> an_attribute n.
Proof.
  split.
  - destruct n; try discriminate. intros _. repeat eexists.
  - intros (k & v & st & w & ->). reflexivity.
Qed.
Lemma not_attribute n : ~ an_attribute n <-> is_attribute n = false.
Proof.
  rewrite <- an_attribute_is. destruct (is_attribute n); split; intros H; try reflexivity; try discriminate.
  - exfalso. apply H. reflexivity.
Qed.

Lemma comprises_drop rest attrs kids : comprises rest attrs kids -> drop_attributes rest = kids.
Proof.
  intros (-> & F & N). induction F as [|n l (k & v & st & w & ->) F IH]; [|exact IH].
  cbn [app]. destruct kids as [|k l]; [reflexivity|]. apply not_attribute in N.
  destruct k; try reflexivity. discriminate N.
Qed.
Lemma comprises_of rest : exists attrs, comprises rest attrs (drop_attributes rest).
Proof.
  induction rest as [|n l (attrs & E & F & N)].
  - exists []. repeat split; constructor.
  - destruct n as [a|a|a|a|ns st ew es w|k v st w];
      try (exists []; split; [reflexivity|]; split; [constructor|]; cbn; intros (k' & v' & st' & w' & H); discriminate H).
    exists (Attr k v st w :: attrs). cbn [drop_attributes]. split; [cbn [app]; f_equal; exact E|].
    split; [constructor; [repeat eexists|exact F]|exact N].
Qed.

Lemma closing_is tag w ew kids : closing_ws tag w ew (on_next_line kids) = before_close tag w ew kids.
Proof. destruct ew; [|reflexivity]. destruct kids; reflexivity. Qed.

Lemma handed_on_is kids : adjust_first kids = handed_on kids.
Proof.
  destruct kids as [|k l]; [reflexivity|]. cbn [adjust_first handed_on]. unfold kept. cbn [andb].
  change (existsb (Ascii.eqb LF) (leading_ws k)) with (has LF (leading_ws k)).
  destruct (has LF (leading_ws k)); cbn [negb]; [|reflexivity]. f_equal. destruct k as [[]|[]|[]|[]| |]; reflexivity.
Qed.

(** ** XML *)

Lemma xml_attribute_ok n s : XmlAttribute n s -> exists x, xml_attribute n = Ok x /\ s = b " " ++ x.
Proof. intros [k v st w a A]. cbn [xml_attribute]. rewrite A. eexists. split; reflexivity. Qed.

Lemma xml_attrs_back attrs ats kids : Forall2 XmlAttribute attrs ats ->
  match kids with [] => True | k :: _ => ~ an_attribute k end -> xml_attributes (attrs ++ kids) = Ok (concat ats).
Proof.
  intros F N. induction F as [|n s l ss [k v st w a A] F IH].
  - cbn [app concat]. destruct kids as [|k l]; [reflexivity|]. apply not_attribute in N. destruct k; try reflexivity.
    discriminate N.
  - cbn [app xml_attributes xml_attribute]. rewrite A. cbn [bind]. rewrite IH. cbn [bind concat].
    unfold pair. rewrite <- !app_assoc. cbn [app]. rewrite <- ?app_assoc. reflexivity.
Qed.
Lemma xml_attrs_bad l x r ats site : Forall2 XmlAttribute l ats -> BadValue x site ->
  xml_attributes (l ++ x :: r) = Err (EErr EXmlAttrValue site).
Proof.
  intros F [k v st w A]. induction F as [|n s l ss [k' v' st' w' a A'] F IH].
  - cbn [app xml_attributes xml_attribute]. rewrite A. reflexivity.
  - cbn [app xml_attributes xml_attribute]. rewrite A'. cbn [bind]. rewrite IH. reflexivity.
Qed.
Lemma attrs_case attrs : Forall an_attribute attrs ->
  (Forall (fun n => exists k v st w a, n = Attr k v st w /\ atomic v = Some a) attrs) \/
  (exists l x r site, attrs = l ++ x :: r /\
     Forall (fun n => exists k v st w a, n = Attr k v st w /\ atomic v = Some a) l /\ BadValue x site).
Proof.
  induction 1 as [|n l (k & v & st & w & ->) F IH]; [left; constructor|].
  destruct (atomic v) as [a|] eqn:A.
  - destruct IH as [IH|(l' & x & r & site & -> & F' & B)].
    + left. constructor; [|exact IH]. exists k, v, st, w, a. split; [reflexivity|exact A].
    + right. exists (Attr k v st w :: l'), x, r, site. split; [reflexivity|]. split; [|exact B].
      constructor; [|exact F']. exists k, v, st, w, a. split; [reflexivity|exact A].
  - right. exists [], (Attr k v st w), l, (node_site v). split; [reflexivity|]. split; [constructor|].
    constructor. exact A.
Qed.
Lemma xml_attrs_of l : Forall (fun n => exists k v st w a, n = Attr k v st w /\ atomic v = Some a) l ->
  exists ats, Forall2 XmlAttribute l ats.
Proof.
  induction 1 as [|n l (k & v & st & w & a & -> & A) F (ats & IH)]; [exists []; constructor|].
  eexists. constructor; [constructor; exact A|exact IH].
Qed.

Lemma xml_words_back l ws : Forall2 XmlWord l ws -> xml_declaration l = Ok (concat ws).
Proof.
  induction 1 as [|n s l ss W F IH]; [reflexivity|].
  destruct W as [n a S|n s [k v st w a A]].
  - cbn [xml_declaration]. rewrite S, IH. reflexivity.
  - cbn [xml_declaration symbolic xml_attribute]. rewrite A. cbn [bind]. rewrite IH. cbn [bind concat].
    unfold pair. rewrite <- !app_assoc. cbn [app]. rewrite <- ?app_assoc. reflexivity.
Qed.
Lemma xml_words_bad l x r ws q : Forall2 XmlWord l ws -> NoXmlWord x q -> xml_declaration (l ++ x :: r) = q.
Proof.
  intros F N. induction F as [|n s l ss W F IH]; cbn [app].
  - destruct N as [n st [k v st' w A]|n S N].
    + cbn [xml_declaration symbolic xml_attribute]. rewrite A. reflexivity.
    + cbn [xml_declaration]. rewrite S. apply not_attribute in N. destruct n; try reflexivity; discriminate.
  - destruct W as [n a S|n s [k v st w a A]].
    + cbn [xml_declaration]. rewrite S, IH. destruct N; reflexivity.
    + cbn [xml_declaration symbolic xml_attribute]. rewrite A. cbn [bind]. rewrite IH. destruct N; reflexivity.
Qed.
Lemma xml_words_case l : (exists ws, Forall2 XmlWord l ws) \/
  (exists x n r ws q, l = x ++ n :: r /\ Forall2 XmlWord x ws /\ NoXmlWord n q).
Proof.
  induction l as [|n l IH]; [left; exists []; constructor|].
  assert (C : (exists s, XmlWord n s) \/ exists q, NoXmlWord n q).
  { destruct n as [a|a|a|a|ns st ew es w|k v st w].
    - left. eexists. apply xw_word. reflexivity.
    - left. eexists. apply xw_word. reflexivity.
    - right. eexists. apply nxw_other; [reflexivity|apply not_attribute; reflexivity].
    - right. eexists. apply nxw_other; [reflexivity|apply not_attribute; reflexivity].
    - right. eexists. apply nxw_other; [reflexivity|apply not_attribute; reflexivity].
    - destruct (atomic v) as [a|] eqn:A.
      + left. eexists. apply xw_attr. constructor. exact A.
      + right. eexists. apply nxw_attr. constructor. exact A. }
  destruct C as [[s W]|[q N]].
  - destruct IH as [[ws F]|(x & m & r & ws & q & -> & F & N)].
    + left. eexists. constructor; [exact W|exact F].
    + right. exists (n :: x), m, r, (s :: ws), q. split; [reflexivity|]. split; [constructor; assumption|exact N].
  - right. exists [], n, l, [], q. split; [reflexivity|]. split; [constructor|exact N].
Qed.

Fixpoint xml_kids (first : bool) (l : list node) : res bytes :=
  match l with
  | [] => Ok []
  | n :: l' =>
      let* x := xml_node_ws (kept first (leading_ws n)) n in
      let* xs := xml_kids false l' in Ok (x ++ xs)
  end.
Definition xml_inner := fix go (front : bool) (l : list node) : res bytes :=
  match l with
  | [] => Ok []
  | m :: l' =>
      if front && is_attribute m then go true l' else
      let w := leading_ws m in
      let* x := xml_node_ws (if front && negb (has LF w) then [] else w) m in
      let* xs := go false l' in
      Ok (x ++ xs)
  end.
Lemma xml_inner_false l : xml_inner false l = xml_kids false l.
Proof. induction l as [|n l IH]; [reflexivity|]. cbn [xml_inner xml_kids andb]. rewrite IH. reflexivity. Qed.
Lemma xml_inner_true l : xml_inner true l = xml_kids true (drop_attributes l).
Proof.
  induction l as [|n l IH]; [reflexivity|].
  destruct n; try (cbn [xml_inner drop_attributes xml_kids andb is_attribute attribute is_some];
    rewrite xml_inner_false; reflexivity).
  exact IH.
Qed.
Lemma xml_element w a c tag rest st ew es w0 : a_val a = c :: tag -> c <> "!"%char -> c <> "?"%char ->
  xml_node_ws w (Lst (Sym a :: rest) st ew es w0) =
  (let* attrs := xml_attributes rest in
   let* kids := xml_kids true (drop_attributes rest) in
   Ok (w ++ b "<" ++ a_val a ++ attrs ++ b ">" ++ kids ++
       before_close (a_val a) w ew (drop_attributes rest) ++ b "</" ++ a_val a ++ b ">")).
Proof.
  intros V N1 N2. cbn [xml_node_ws]. rewrite V.
  destruct (ch c "!") eqn:C1; [apply ch_eq in C1; contradiction|].
  destruct (ch c "?") eqn:C2; [apply ch_eq in C2; contradiction|]. cbn [orb].
  change (fix go (front : bool) (l : list node) {struct l} : res bytes := _) with xml_inner.
  rewrite xml_inner_true, closing_is. reflexivity.
Qed.
Lemma xml_decl w a c tag rest st ew es w0 : a_val a = c :: tag -> c = "!"%char \/ c = "?"%char ->
  xml_node_ws w (Lst (Sym a :: rest) st ew es w0) =
  (let* body := xml_declaration rest in
   Ok (w ++ b "<" ++ a_val a ++ body ++ (if ch c "?" then b " ?>" else b ">"))).
Proof. intros V [-> | ->]; cbn [xml_node_ws]; rewrite V; reflexivity. Qed.

Scheme xml_mut := Induction for Xml Sort Prop with xml_all_mut := Induction for XmlAll Sort Prop.

Lemma atom_text_xml n s w : atom_text n s -> xml_node_ws w n = Ok (w ++ s).
Proof.
  intros (a & A & E). apply escaped_is in E as ->. destruct A as [-> | [-> | ->]]; reflexivity.
Qed.

Lemma xml_back w n s : Xml w n s -> xml_node_ws w n = Ok s.
Proof.
  induction 1 as [w n s A|w a tag rest ws st ew es w0 V F|w a tag rest ws st ew es w0 V F
    |w a c tag rest attrs kids ats s st ew es w0 V N1 N2 C F A IH| |first n l s t X IH A IHl]
    using xml_mut with (P0 := fun first l s _ => xml_kids first l = Ok s).
  - apply atom_text_xml. exact A.
  - rewrite (xml_decl w a _ _ rest st ew es w0 V (or_introl eq_refl)), (xml_words_back _ _ F). cbn [bind].
    rewrite V. reflexivity.
  - rewrite (xml_decl w a _ _ rest st ew es w0 V (or_intror eq_refl)), (xml_words_back _ _ F). cbn [bind].
    rewrite V. reflexivity.
  - rewrite (xml_element w a c tag rest st ew es w0 V N1 N2), (comprises_drop _ _ _ C).
    destruct C as (-> & F' & K). rewrite (xml_attrs_back attrs ats kids F K). cbn [bind]. rewrite IH. reflexivity.
  - reflexivity.
  - cbn [xml_kids]. rewrite IH. cbn [bind]. rewrite IHl. reflexivity.
Qed.
Lemma xml_all_back first l s : XmlAll first l s -> xml_kids first l = Ok s.
Proof.
  induction 1 as [|first n l s t X A IH]; [reflexivity|]. cbn [xml_kids]. rewrite (xml_back _ _ _ X). cbn [bind].
  rewrite IH. reflexivity.
Qed.
Lemma bind_same {A} (r q : res A) (f : A -> res A) : r = q -> ok_or q -> (let* x := r in f x) = q.
Proof. intros -> N. destruct q as [s|e|p| |]; try reflexivity. exfalso. exact (N s eq_refl). Qed.
Lemma xml_kids_stop first l x r s q : XmlAll first l s -> (forall w, xml_node_ws w x = q) -> ok_or q ->
  xml_kids first (l ++ x :: r) = q.
Proof.
  intros A X N. induction A as [first|first n l s t Xn A IH]; cbn [app xml_kids].
  - apply bind_same; [apply X|exact N].
  - rewrite (xml_back _ _ _ Xn). cbn [bind]. apply bind_same; [exact IH|exact N].
Qed.
Lemma noxml_bad n q : NoXml n q -> ok_or q.
Proof.
  induction 1 as [| | | | |a c tag l x r ws q st ew es w V C F N| |]; intros s' E; try discriminate E.
  - destruct N; discriminate E.
  - eapply IHNoXml. exact E.
Qed.
Lemma noxml_back n q : NoXml n q -> forall w, xml_node_ws w n = q.
Proof.
  induction 1 as [a|k v st w0|st ew es w0|hd l st ew es w0 H|a l st ew es w0 V
    |a c tag l x r ws q st ew es w0 V C F N|a c tag l x r ats site st ew es w0 V N1 N2 F B
    |a c tag rest attrs kids ats l x r s q st ew es w0 V N1 N2 C F -> A N IH]; intros w; try reflexivity.
  - cbn [xml_node_ws]. destruct hd; try reflexivity. destruct (H a eq_refl).
  - cbn [xml_node_ws]. rewrite V. reflexivity.
  - rewrite (xml_decl w a c tag _ st ew es w0 V C). 
    apply bind_same; [exact (xml_words_bad l x r ws q F N)|]. intros s E. destruct N; discriminate E.
  - rewrite (xml_element w a c tag _ st ew es w0 V N1 N2), (xml_attrs_bad l x r ats site F B). reflexivity.
  - rewrite (xml_element w a c tag _ st ew es w0 V N1 N2), (comprises_drop _ _ _ C).
    destruct C as (-> & F' & K). rewrite (xml_attrs_back attrs ats _ F K). cbn [bind].
    apply bind_same; [|exact (noxml_bad x q N)].
    exact (xml_kids_stop true l x r s q A IH (noxml_bad x q N)).
Qed.

Definition xml_case (n : node) : Prop := forall w, (exists s, Xml w n s) \/ (exists q, NoXml n q).
Lemma xml_kids_case l : Forall xml_case l -> forall first,
  (exists s, XmlAll first l s) \/ (exists x n r s q, l = x ++ n :: r /\ XmlAll first x s /\ NoXml n q).
Proof.
  induction 1 as [|n l H F IH]; intros first; [left; eexists; constructor|].
  destruct (H (kept first (leading_ws n))) as [[s X]|[q N]].
  - destruct (IH false) as [[t A]|(x & m & r & t & q & -> & A & N)].
    + left. eexists. constructor; eassumption.
    + right. exists (n :: x), m, r, (s ++ t), q. split; [reflexivity|]. split; [constructor; assumption|exact N].
  - right. exists [], n, l, [], q. split; [reflexivity|]. split; [constructor|exact N].
Qed.
Lemma forall_drop (P : node -> Prop) l : Forall P l -> Forall P (drop_attributes l).
Proof. apply drop_forall. Qed.
Lemma atom_text_of n a : n = Sym a \/ n = Num a \/ n = Str a -> atom_text n (escape_xml (a_val a)).
Proof. intros H. exists a. split; [exact H|apply escape_escaped]. Qed.

Lemma xml_cases n : xml_case n.
Proof.
  induction n as [a|a|a|a|ns st ew es w0 IH|k v st w0 _] using node_ind'; intros w.
  - left. eexists. apply x_atom, (atom_text_of _ a). auto.
  - left. eexists. apply x_atom, (atom_text_of _ a). auto.
  - left. eexists. apply x_atom, (atom_text_of _ a). auto.
  - right. eexists. apply nx_raw.
  - destruct ns as [|hd rest]; [right; eexists; apply nx_empty|].
    assert (D : (exists a, hd = Sym a) \/ forall a, hd <> Sym a).
    { destruct hd; try (right; intros ?; discriminate). left. eexists. reflexivity. }
    destruct D as [[a ->]|D]; [|right; eexists; apply nx_head, D].
    destruct (a_val a) as [|c tag] eqn:V; [right; eexists; apply nx_no_name, V|].
    destruct (ascii_dec c "!") as [->|N1].
    { destruct (xml_words_case rest) as [[ws F]|(x & n & r & ws & q & -> & F & N)].
      - left. eexists. eapply x_bang; eassumption.
      - right. eexists. eapply nx_declaration; [exact V|left; reflexivity|exact F|exact N]. }
    destruct (ascii_dec c "?") as [->|N2].
    { destruct (xml_words_case rest) as [[ws F]|(x & n & r & ws & q & -> & F & N)].
      - left. eexists. eapply x_query; eassumption.
      - right. eexists. eapply nx_declaration; [exact V|right; reflexivity|exact F|exact N]. }
    destruct (comprises_of rest) as [attrs C].
    destruct (attrs_case attrs (proj1 (proj2 C))) as [G|(l & x & r & site & E & G & B)].
    + destruct (xml_attrs_of attrs G) as [ats F].
      assert (K : Forall xml_case (drop_attributes rest)) by (apply forall_drop; inversion IH; assumption).
      destruct (xml_kids_case _ K true) as [[s A]|(x & n & r & s & q & E & A & N)].
      * left. eexists. eapply x_element; eassumption.
      * right. eexists. eapply nx_child; eassumption.
    + destruct (xml_attrs_of l G) as [ats F]. right. eexists.
      destruct C as (-> & _ & _). rewrite E, <- app_assoc. cbn [app].
      eapply nx_value; eassumption.
  - right. eexists. apply nx_attribute.
Qed.

Lemma xml_iff w n r : xml_node_ws w n = r <-> match r with Ok s => Xml w n s | _ => NoXml n r end.
Proof.
  split.
  - intros H. destruct (xml_cases n w) as [[s X]|[q N]].
    + rewrite (xml_back _ _ _ X) in H. subst r. exact X.
    + rewrite (noxml_back _ _ N) in H. subst q. pose proof (noxml_bad _ _ N) as B.
      destruct r; try exact N. destruct (B a eq_refl).
  - destruct r as [s|e|p| |]; intros H; [apply xml_back, H| | | |]; apply noxml_back, H.
Qed.

Lemma xml_gen_kids t : xml_gen t = xml_kids false t.
Proof.
  unfold xml_gen. induction t as [|n t IH]; [reflexivity|]. cbn [map concat_res xml_kids]. rewrite IH. reflexivity.
Qed.
Lemma noxmlall_back l q : NoXmlAll l q -> xml_gen l = q /\ ok_or q.
Proof.
  intros [x n r s -> A N]. split; [|exact (noxml_bad n q N)]. rewrite xml_gen_kids.
  exact (xml_kids_stop false x n r s q A (noxml_back n q N) (noxml_bad n q N)).
Qed.
Lemma xml_gen_iff t r : xml_gen t = r <-> match r with Ok s => XmlAll false t s | _ => NoXmlAll t r end.
Proof.
  split.
  - intros H. assert (K : Forall xml_case t) by (apply Forall_forall; intros; apply xml_cases).
    destruct (xml_kids_case t K false) as [[s A]|(x & n & l & s & q & -> & A & N)].
    + rewrite xml_gen_kids, (xml_all_back _ _ _ A) in H. subst r. exact A.
    + pose proof (nxs _ q x n l s eq_refl A N) as X. destruct (noxmlall_back _ _ X) as [Q B].
      rewrite Q in H. subst q. destruct r; try exact X. destruct (B a eq_refl).
  - rewrite xml_gen_kids. destruct r as [s|e|p| |]; intros H; [apply xml_all_back, H| | | |];
      rewrite <- xml_gen_kids; apply noxmlall_back, H.
Qed.

(** ** Lower case *)

Lemma lower_letter c d :
  (exists i, nth_error capitals i = Some c /\ nth_error small_letters i = Some d) \/ (~ In c capitals /\ d = c) <->
  lower c = d.
Proof.
  split.
  - intros [[i [H K]]|[N ->]].
    + do 26 (destruct i as [|i]; [injection H as <-; injection K as <-; reflexivity|cbn in H, K]). destruct i; discriminate.
    + destruct (existsb (Ascii.eqb c) capitals) eqn:Q.
      * apply existsb_exists in Q as [x [I F]]. apply Ascii.eqb_eq in F as ->. contradiction.
      * revert Q. clear N. destruct c as [[] [] [] [] [] [] [] []]; vm_compute; intros Q; congruence.
  - intros <-. destruct (existsb (Ascii.eqb c) capitals) eqn:Q.
    + apply existsb_exists in Q as [x [I F]]. apply Ascii.eqb_eq in F as ->. left.
      apply In_nth_error in I as [i I]. exists i. split; [exact I|].
      do 26 (destruct i as [|i]; [injection I as <-; reflexivity|cbn in I |- *]). destruct i; discriminate.
    + right. split.
      * intros I. assert (T : existsb (Ascii.eqb c) capitals = true) by (apply existsb_exists; exists c; split; [exact I|apply Ascii.eqb_refl]).
        congruence.
      * revert Q. destruct c as [[] [] [] [] [] [] [] []]; vm_compute; intros Q; congruence.
Qed.
Lemma lower_case s t : to_lower s = t <-> in_lower_case s t.
Proof.
  unfold in_lower_case, to_lower. split.
  - intros <-. induction s as [|c s IH]; cbn; constructor; [apply lower_letter; reflexivity|exact IH].
  - induction 1 as [|c d s t H _ IH]; [reflexivity|]. cbn. apply lower_letter in H. congruence.
Qed.
