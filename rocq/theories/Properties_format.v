(** * Theorems about the output formatters (C11-C20, C49)

    [printable] is the oracle of [Debug.v]; [sources] gives the text of each
    source buffer. *)

From Coq Require Import String List Ascii Bool Arith Lia.
From Verif Require Import Text Utf8 Res Lexer Ast Parser Debug Format
  Spec_grammar Spec_tree Spec_tokens Spec_print Spec_markup Spec_output
  Proofs_text Proofs_markup Proofs_css Proofs_output Proofs_pre Proofs_unescape Proofs_fields Proofs_plain.
Import ListNotations.

Definition all_printable : bytes -> bool := fun _ => true.

(** ** C11: XML escaping *)

(** The escaped text reads as the original, and only as it. *)
Theorem c11_escape_reads : forall s, Escaped (escape_xml s) s /\
  forall s', Escaped (escape_xml s) s' -> s' = s.
Proof.
  intro s. split; [apply escape_escaped|]. intros s' H.
  eapply escaped_unique; [exact H|apply escape_escaped].
Qed.
Print Assumptions c11_escape_reads.

Theorem c11_injective : forall s1 s2, escape_xml s1 = escape_xml s2 -> s1 = s2.
Proof. exact escape_inj. Qed.
Print Assumptions c11_injective.

Theorem c11_no_markup : forall c s, In c [ "<"%char; ">"%char; DQ; "'"%char ] ->
  ~ In c (escape_xml s).
Proof. exact escape_no_markup. Qed.
Print Assumptions c11_no_markup.

(** The unchecked conversion back to a string is sound. *)
Theorem c11_utf8 : forall s, utf8 s -> utf8 (escape_xml s).
Proof. exact escape_utf8. Qed.
Print Assumptions c11_utf8.

Example c11_example : escape_xml (b "<a href='x'>&amp;") = b "&lt;a href=&apos;x&apos;&gt;&amp;amp;".
Proof. reflexivity. Qed.

(** ** C12: XML output means the tree *)

Theorem c12_xml_meaning : forall t s, xml_gen t = Ok s ->
  Forall (fun n => legal_xml (fun _ => true) n = true) t ->
  Forall (Forall blank_char) (flat_map ws_fields t) ->
  XmlContent s (flat_map (items_xml (fun n => n) false) t) /\
  forall items, XmlContent s items -> items = flat_map (items_xml (fun n => n) false) t.
Proof.
  intros t s H L B. pose proof (xml_gen_content t s H L B) as C. split; auto.
  intros items C'. eapply content_unique; eauto.
Qed.
Print Assumptions c12_xml_meaning.

(** Trees obtained by parsing have blank whitespace. *)
Theorem c12_xml_source : forall unescape id src t s, utf8 src ->
  parse unescape id src = Ok t -> xml_gen t = Ok s ->
  Forall (fun n => legal_xml (fun _ => true) n = true) t ->
  forall items, XmlContent s items <-> items = flat_map (items_xml (fun n => n) false) t.
Proof.
  intros unescape id src t s U P H L items.
  pose proof (xml_gen_content t s H L (parse_ws unescape id src t U P)) as C.
  split; [intro C'; eapply content_unique; eauto|intros ->; exact C].
Qed.
Print Assumptions c12_xml_source.

Example c12_example :
  let src := b "(a :k ""v"" (b ""</a>&"") x )" in
  exists t s, parse ref_unescape 0 src = Ok t /\ xml_gen t = Ok s /\
    Forall (fun n => legal_xml (fun _ => true) n = true) t /\
    s = b "<a k=""v""><b>&lt;/a&gt;&amp;</b> x </a>" /\
    flat_map (items_xml (fun n => n) false) t =
      [Elem (b "a") [(b "k", b "v")]
         ([Elem (b "b") [] (chars (b "</a>&"))] ++ chars (b " x "))].
Proof.
  eexists. eexists. split; [vm_compute; reflexivity|]. split; [vm_compute; reflexivity|].
  split; [repeat constructor|]. split; (vm_compute; reflexivity).
Qed.

(** ** C13: HTML output means the tree *)

Theorem c13_html_meaning : forall printable sources t s, html_gen printable sources t = Ok s ->
  Forall (fun n => legal_html n = true) t ->
  Forall (Forall blank_char) (flat_map ws_fields t) ->
  HtmlContent s (flat_map (items_html false) t) /\
  forall items, HtmlContent s items -> items = flat_map (items_html false) t.
Proof.
  intros printable sources t s H L B. pose proof (html_list_content printable sources t s H L B) as C.
  split; auto. intros items C'. eapply content_unique; eauto.
Qed.
Print Assumptions c13_html_meaning.

Theorem c13_html_source : forall unescape id src printable sources t s, utf8 src ->
  parse unescape id src = Ok t -> html_gen printable sources t = Ok s ->
  Forall (fun n => legal_html n = true) t ->
  forall items, HtmlContent s items <-> items = flat_map (items_html false) t.
Proof.
  intros unescape id src printable sources t s U P H L items.
  pose proof (html_list_content printable sources t s H L (parse_ws unescape id src t U P)) as C.
  split; [intro C'; eapply content_unique; eauto|intros ->; exact C].
Qed.
Print Assumptions c13_html_source.

Example c13_example :
  let src := b "(DIV (img :src x.png)(P 1 ""<hr>"")(svg (g)))" in
  exists t s, parse ref_unescape 0 src = Ok t /\
    html_gen all_printable (fun _ => src) t = Ok s /\
    Forall (fun n => legal_html n = true) t /\
    s = b "<DIV><img src=""x.png""><P>1 &lt;hr&gt;</p><svg><g></g></svg></div>" /\
    flat_map (items_html false) t =
      [Elem (b "div") []
        [ Elem (b "img") [(b "src", b "x.png")] [];
          Elem (b "p") [] (chars (b "1 <hr>"));
          Elem (b "svg") [] [Elem (b "g") [] []] ]].
Proof.
  eexists. eexists. split; [vm_compute; reflexivity|]. split; [vm_compute; reflexivity|].
  split; [repeat constructor|]. split; (vm_compute; reflexivity).
Qed.

(** ** C14: attribute values *)

(** After the opening quote the reader gets back the value, with nothing left
    over, exactly when the value contains no quote. *)
Theorem c14_xml_attribute : forall k v st w a, atomic v = Some a ->
  exists x, xml_attribute (Attr k v st w) = Ok (k ++ b "=" ++ DQ :: x) /\
    (up_to_quote x = Some (a_val a, []) <-> ~ In DQ (a_val a)).
Proof.
  intros k v st w a E. exists (a_val a ++ [DQ]). split; [simpl; rewrite E; reflexivity|].
  apply up_to_quote_iff.
Qed.
Print Assumptions c14_xml_attribute.

(** In HTML, with the further attributes behind it. *)
Theorem c14_html_attribute : forall k v st w a rest out, atomic v = Some a ->
  html_attributes (Attr k v st w :: rest) = Ok out ->
  exists more x, html_attributes rest = Ok more /\
    out = (match w with [] => b " " | _ => w end) ++ k ++ b "=" ++ DQ :: x /\
    (up_to_quote x = Some (a_val a, more) <-> ~ In DQ (a_val a)).
Proof.
  intros k v st w a rest out E H. simpl in H. rewrite E in H.
  destruct (html_attributes rest) as [more| | | |]; try discriminate H. injection H as <-.
  exists more, (a_val a ++ DQ :: more). split; auto. split; [reflexivity|apply up_to_quote_iff].
Qed.
Print Assumptions c14_html_attribute.

(** The defect, for both formatters: a quote in a value starts a new
    attribute, so that two different trees give the same page. *)
Theorem c14_xml_breakout_refuted : exists src1 src2 t1 t2 s,
  parse ref_unescape 0 src1 = Ok t1 /\ parse ref_unescape 0 src2 = Ok t2 /\
  flat_map (items_xml (fun n => n) false) t1 <> flat_map (items_xml (fun n => n) false) t2 /\
  xml_gen t1 = Ok s /\ xml_gen t2 = Ok s.
Proof.
  exists (b "(a :href ""x\"" onclick=\""evil()"")"), (b "(a :href x :onclick ""evil()"")").
  eexists. eexists. eexists. split; [vm_compute; reflexivity|]. split; [vm_compute; reflexivity|].
  split; [vm_compute; discriminate|]. split; (vm_compute; reflexivity).
Qed.
Print Assumptions c14_xml_breakout_refuted.

Theorem c14_html_breakout_refuted : exists src1 src2 t1 t2 s,
  parse ref_unescape 0 src1 = Ok t1 /\ parse ref_unescape 0 src2 = Ok t2 /\
  flat_map (items_html false) t1 <> flat_map (items_html false) t2 /\
  html_gen all_printable (fun _ => []) t1 = Ok s /\ html_gen all_printable (fun _ => []) t2 = Ok s.
Proof.
  exists (b "(img :src ""x\""><b>evil</b><img src=\""y"")"), (b "(img :src x)(b evil)(img :src y)").
  eexists. eexists. eexists. split; [vm_compute; reflexivity|]. split; [vm_compute; reflexivity|].
  split; [vm_compute; discriminate|]. split; (vm_compute; reflexivity).
Qed.
Print Assumptions c14_html_breakout_refuted.

(** Nor are ampersands escaped: the value printed for the text [&lt;] is the
    one a reader decodes to a less-than sign. *)
Theorem c14_ampersand_refuted : exists src t s,
  parse ref_unescape 0 src = Ok t /\ xml_gen t = Ok s /\ s = b "<a k=""&lt;""></a>" /\
  fst (split_attrs (match t with [Lst (_ :: rest) _ _ _ _] => rest | _ => [] end)) = [(b "k", b "&lt;")] /\
  Escaped (b "&lt;") (b "<").
Proof.
  exists (b "(a :k ""&lt;"")"). eexists. eexists. split; [vm_compute; reflexivity|].
  split; [vm_compute; reflexivity|]. split; [vm_compute; reflexivity|]. split; [vm_compute; reflexivity|].
  apply (esc_entity (b "&lt;") "<"%char [] []); [simpl; auto|constructor].
Qed.
Print Assumptions c14_ampersand_refuted.

Example c14_example :
  let v := Str (Atom (b "it's <ok>") (Site 0 1 0 0 0) (b " ")) in
  xml_attribute (Attr (b "k") v (Site 0 1 0 0 0) []) = Ok (b "k=" ++ DQ :: b "it's <ok>" ++ [DQ]) /\
  up_to_quote (b "it's <ok>" ++ [DQ]) = Some (b "it's <ok>", []).
Proof. split; reflexivity. Qed.

(** ** C15: the HTML document wrapper *)

Theorem c15_empty : forall printable sources, html_document printable sources [] = Ok (
b "<!DOCTYPE html>
<html>
<head></head>
<body>
<!-- Generated by SEAM (empty file) -->
</body>
</html>
").
Proof. reflexivity. Qed.
Print Assumptions c15_empty.

(** Which parts are printed around the generated text. *)
Theorem c15_document : forall printable sources t, t <> [] ->
  exists doctype html head body : bool,
    (doctype = true <-> exists n, In n t /\ ListWithin (b "!doctype") 1 n) /\
    (html = true <-> exists n, In n t /\ ListWithin (b "html") 1 n) /\
    (head = true <-> exists n, In n t /\ ListWithin (b "head") 2 n) /\
    (body = true <-> exists n, In n t /\ ListWithin (b "body") 2 n) /\
    html_document printable sources t =
      (let* c := html_gen printable sources t in
       Ok (if doctype then c
           else if html then b "<!DOCTYPE html>" ++ [LF] ++ c
           else b "<!DOCTYPE html>" ++ [LF] ++ b "<html>" ++ [LF] ++
                (if head then [] else b "<head></head>" ++ [LF]) ++
                (if body then [] else b "<body>" ++ [LF]) ++
                c ++ [LF] ++
                (if body then [] else b "</body>" ++ [LF]) ++ b "</html>")).
Proof. exact html_document_ok. Qed.
Print Assumptions c15_document.

(** The wrapped page is one document type and one [html] element around what
    the tree stands for. *)
Theorem c15_wrapped_meaning : forall printable sources t s, t <> [] ->
  Forall (fun n => legal_html n = true) t ->
  Forall (Forall blank_char) (flat_map ws_fields t) ->
  (forall n, In n t -> ~ ListWithin (b "!doctype") 1 n /\ ~ ListWithin (b "html") 1 n) ->
  html_document printable sources t = Ok s ->
  exists head body : bool,
    (head = true <-> exists n, In n t /\ ListWithin (b "head") 2 n) /\
    (body = true <-> exists n, In n t /\ ListWithin (b "body") 2 n) /\
    let inner := flat_map (items_html false) t ++ [Char LF] in
    forall items, HtmlContent s items <-> items =
      [ Decl (b "!DOCTYPE html"); Char LF;
        Elem (b "html") []
          (Char LF :: (if head then [] else [Elem (b "head") [] []; Char LF]) ++
           (if body then inner else [Elem (b "body") [] (Char LF :: inner); Char LF])) ].
Proof.
  intros printable sources t s NE L B NO H.
  destruct (html_document_ok printable sources t NE) as (d & h & head & body & Hd & Hh & Hhead & Hbody & E).
  rewrite E in H. destruct (html_gen printable sources t) as [c| | | |] eqn:Ec; try discriminate H.
  cbn [bind] in H.
  destruct d; [destruct (proj1 Hd eq_refl) as (n & I1 & I2); destruct (NO n I1); contradiction|].
  destruct h; [destruct (proj1 Hh eq_refl) as (n & I1 & I2); destruct (NO n I1); contradiction|].
  exists head, body. split; auto. split; auto. intros inner items.
  apply ok_inj in H. subst s.
  pose proof (html_wrap_content c _ (html_list_content printable sources t c Ec L B) head body) as C.
  split; [intro C'; eapply content_unique; eauto|intros ->; exact C].
Qed.
Print Assumptions c15_wrapped_meaning.

Example c15_example :
  let src := b "(Head (link))(p x)" in
  exists t s, parse ref_unescape 0 src = Ok t /\
    html_document all_printable (fun _ => src) t = Ok s /\
    ListWithin (b "head") 2 (hd (Raw (Atom [] (Site 0 0 0 0 0) [])) t) /\
    s = b "<!DOCTYPE html>
<html>
<body>
<Head><link></head><p>x</p>
</body>
</html>".
Proof.
  eexists. eexists. split; [vm_compute; reflexivity|]. split; [vm_compute; reflexivity|].
  split; [|vm_compute; reflexivity]. eapply lw_here; reflexivity.
Qed.

(** ** C16: the XML declaration *)

Theorem c16_empty : xml_document [] = Ok (b "<?xml version=""1.0"" encoding=""UTF-8"" ?>
").
Proof. reflexivity. Qed.
Print Assumptions c16_empty.

Theorem c16_document : forall n t,
  exists decl : bool, (decl = true <-> ~ headed_by_any_case (b "?xml") n) /\
    xml_document (n :: t) =
      (let* c := xml_gen (n :: t) in
       Ok ((if decl then b "<?xml version=""1.0"" encoding=""UTF-8"" ?>
" else []) ++ c)).
Proof.
  intros n t. exists (negb (has_xml_declaration (n :: t))). split.
  - rewrite negb_true_iff. unfold has_xml_declaration, headed_by_any_case. split.
    + intros H (a & rest & s & ew & es & w & -> & E). rewrite E in H. discriminate H.
    + intros N. destruct n as [ | | | |[|[a| | | | |] rest] s ew es w|]; auto.
      destruct (beq (to_lower (a_val a)) (b "?xml")) eqn:E; auto.
      exfalso. apply N. exists a, rest, s, ew, es, w. split; auto. apply beq_eq; auto.
  - unfold xml_document. destruct (has_xml_declaration (n :: t)); reflexivity.
Qed.
Print Assumptions c16_document.

Example c16_example :
  exists t, parse ref_unescape 0 (b "(?XML :version ""1.0"")(a)") = Ok t /\
    xml_document t = Ok (b "<?XML version=""1.0"" ?><a></a>").
Proof. eexists. split; [vm_compute; reflexivity|]. vm_compute. reflexivity. Qed.

(** ** C17: CSS rules *)

(** A rule without at-keyword: selectors, brace, one line per property. *)
Theorem c17_ordinary_rule : forall printable nodes st ew es w s,
  css_rule printable (Lst nodes st ew es w) = Ok s ->
  (forall hd rest a, nodes = hd :: rest -> atomic hd = Some a ->
     nesting_rule (a_val a) = false /\ line_rule (a_val a) = false) ->
  exists sel_nodes sels prop_nodes props,
    nodes = sel_nodes ++ prop_nodes /\ sels <> [] /\ props <> [] /\
    Forall2 (fun n a => atomic n = Some a) sel_nodes sels /\
    Forall2 (fun n kv => exists v st w, n = Attr (fst kv) v st w /\ css_value printable v = Ok (snd kv))
      prop_nodes props /\
    s = flat_map (fun a => a_val a ++ b " ") sels ++ b "{" ++ [LF] ++
        flat_map (fun kv => b "  " ++ fst kv ++ b ": " ++ snd kv ++ b ";" ++ [LF]) props ++ b "}".
Proof. exact css_rule_ordinary. Qed.
Print Assumptions c17_ordinary_rule.

(** Stylesheets have balanced braces. *)
Theorem c17_balanced : forall printable t s, css_gen printable t = Ok s ->
  Forall brace_free (flat_map values t) -> Forall (Forall blank_char) (flat_map ws_fields t) ->
  forallb rules_nested t = true -> balanced s.
Proof. exact css_gen_balanced. Qed.
Print Assumptions c17_balanced.

(** The defects: at-rules without nested rules are not balanced ... *)
Theorem c17_balanced_refuted : exists src t s, parse ref_unescape 0 src = Ok t /\
  css_gen all_printable t = Ok s /\ Forall brace_free (flat_map values t) /\ ~ balanced s.
Proof.
  exists (b "(@media print)"). eexists. eexists. split; [vm_compute; reflexivity|].
  split; [vm_compute; reflexivity|]. split.
  - vm_compute. repeat constructor; intuition discriminate.
  - vm_compute. discriminate.
Qed.
Print Assumptions c17_balanced_refuted.

(** ... and a rule without properties is rejected at its last selector. *)
Theorem c17_no_property : forall printable init last st ew es w,
  Forall (fun n => is_atomic n = true) (init ++ [last]) ->
  (forall hd rest a, init ++ [last] = hd :: rest -> atomic hd = Some a ->
     nesting_rule (a_val a) = false /\ line_rule (a_val a) = false) ->
  css_rule printable (Lst (init ++ [last]) st ew es w) = Err (EErr ECssNotProperty (node_site last)).
Proof. exact css_rule_no_property. Qed.
Print Assumptions c17_no_property.

Example c17_example :
  let src := b "(@media print (p > a :margin (calc (+ 1px 2em)) :font ""My Font""))" in
  exists t s, parse ref_unescape 0 src = Ok t /\ css_gen all_printable t = Ok s /\
    Forall brace_free (flat_map values t) /\ forallb rules_nested t = true /\
    s = b "@media print {
 p > a {
  margin: calc((1px + 2em));
  font: ""My Font"";
}}".
Proof.
  eexists. eexists. split; [vm_compute; reflexivity|]. split; [vm_compute; reflexivity|].
  split; [vm_compute; repeat constructor; intuition discriminate|]. split; (vm_compute; reflexivity).
Qed.

(** ** C18: CSS errors *)

Theorem c18_css_returns : forall printable t,
  Forall (fun n => is_list n = true -> ~ BadRule n) t ->
  match css_gen printable t with Ok _ | Err _ => True | _ => False end.
Proof. exact css_gen_returns. Qed.
Print Assumptions c18_css_returns.

(** Conversely a bad rule is the only reason for a panic. *)
Theorem c18_css_panics : forall printable t,
  match css_gen printable t with
  | Ok _ | Err _ => True
  | Panic _ => exists r, In r t /\ is_list r = true /\ BadRule r
  | Hang | OutOfFuel => False
  end.
Proof. exact css_gen_panics. Qed.
Print Assumptions c18_css_panics.

Theorem c18_error_refuted :
  (exists t, parse ref_unescape 0 (b "()") = Ok t /\ css_gen all_printable t = Panic PUnwrap) /\
  (exists t, parse ref_unescape 0 (b "((a) :b c)") = Ok t /\ css_gen all_printable t = Panic PUnwrap).
Proof.
  split; eexists.
  - split; [vm_compute; reflexivity|]. vm_compute. reflexivity.
  - split; [vm_compute; reflexivity|]. vm_compute. reflexivity.
Qed.
Print Assumptions c18_error_refuted.

Example c18_example : exists t e, parse ref_unescape 0 (b "(p :a (x :y z))") = Ok t /\
  Forall (fun n => is_list n = true -> ~ BadRule n) t /\ css_gen all_printable t = Err e.
Proof.
  eexists. eexists. split; [vm_compute; reflexivity|]. split; [|vm_compute; reflexivity].
  repeat constructor. intros _ H.
  inversion H; subst; try discriminate.
  match goal with I : atomic _ = Some _ |- _ => injection I as <- end. discriminate.
Qed.

(** ** C19: failures of the formatters *)

(** The plain-text and S-expression formatters ([text_gen], [sexp_gen]) are
    functions into text: the code has no error exit to model.  The XML
    formatter succeeds on exactly these trees. *)
Theorem c19_xml_succeeds : forall t,
  (exists s, xml_gen t = Ok s) <-> forallb xml_able t = true.
Proof.
  intro t. rewrite <- xml_gen_succeeds. unfold succeeds. destruct (xml_gen t); split; intro H;
    try (destruct H; discriminate); try discriminate; eauto.
Qed.
Print Assumptions c19_xml_succeeds.

Theorem c19_xml_panics : forall t,
  match xml_gen t with
  | Ok _ | Err _ => True
  | Panic _ => exists n m, In n t /\ Inside m n /\ headed_by [] m
  | Hang | OutOfFuel => False
  end.
Proof. exact xml_gen_panics. Qed.
Print Assumptions c19_xml_panics.

Theorem c19_html_panics : forall printable sources t,
  match html_gen printable sources t with
  | Ok _ | Err _ => True
  | Panic _ => exists n m, In n t /\ Inside m n /\
                 (headed_by [] m \/ bad_pre sources m \/ bad_style m)
  | Hang | OutOfFuel => False
  end.
Proof. exact html_gen_panics. Qed.
Print Assumptions c19_html_panics.

(** On parsed sources [pre] elements are no reason for a panic. *)
Theorem c19_html_source_panics : forall unescape id src t printable sources, utf8 src ->
  parse unescape id src = Ok t -> sources id = src ->
  match html_gen printable sources t with
  | Ok _ | Err _ => True
  | Panic _ => exists n m, In n t /\ Inside m n /\ (headed_by [] m \/ bad_style m)
  | Hang | OutOfFuel => False
  end.
Proof.
  intros unescape id src t printable sources U P E.
  pose proof (html_gen_panics printable sources t) as H. unfold panics_only in H.
  destruct (html_gen printable sources t); auto.
  destruct H as (n & m & I1 & I2 & [H|[H|H]]).
  - exists n, m. auto.
  - exfalso. eapply no_bad_pre; eauto.
  - exists n, m. auto.
Qed.
Print Assumptions c19_html_source_panics.

(** The defect: a backslash-escaped backslash at the head of a list is the
    empty symbol, and both formatters panic. *)
Theorem c19_no_panic_refuted : exists t, parse ref_unescape 0 (b "(\\ x)") = Ok t /\
  xml_gen t = Panic PIndex /\ html_gen all_printable (fun _ => b "(\\ x)") t = Panic PIndex.
Proof. eexists. split; [vm_compute; reflexivity|]. split; (vm_compute; reflexivity). Qed.
Print Assumptions c19_no_panic_refuted.

Example c19_example : exists t e, parse ref_unescape 0 (b "(a :k (x) y)") = Ok t /\
  forallb xml_able t = false /\ xml_gen t = Err e.
Proof. eexists. eexists. split; [vm_compute; reflexivity|]. split; (vm_compute; reflexivity). Qed.
Example c19_example_ok : exists t s, parse ref_unescape 0 (b "(a :k x (?pi :v 1))") = Ok t /\
  forallb xml_able t = true /\ xml_gen t = Ok s.
Proof. eexists. eexists. split; [vm_compute; reflexivity|]. split; (vm_compute; reflexivity). Qed.

(** ** C20: pre elements *)

(** The text of a [pre] element is the source from its first child, with the
    child's whitespace less one space, up to the closing parenthesis; but the
    whitespace in front of the closing parenthesis is then written again (or,
    if there is none and the first child is on a new line, that of the
    element). *)
Theorem c20_pre : forall unescape id src t printable sources, utf8 src ->
  parse unescape id src = Ok t -> sources id = src ->
  forall n m a rest s ew es w0, In n t -> Inside m n -> m = Lst (Sym a :: rest) s ew es w0 ->
    to_lower (a_val a) = b "pre" ->
  forall w k more, drop_attributes rest = k :: more ->
    nth_error src (s_off es) = Some ")"%char /\
    html_node_ws printable sources w m =
      (let* attrs := html_attributes rest in
       Ok (w ++ b "<" ++ a_val a ++ attrs ++ b ">" ++
           (drop_space (leading_ws k) ++ slice (s_off (node_site k)) (s_off es) src) ++
           (match ew with [] => if has LF (leading_ws k) then w else [] | _ => ew end) ++ b "</pre>")).
Proof. exact pre_element. Qed.
Print Assumptions c20_pre.

(** The defect: whitespace in front of the closing parenthesis is doubled. *)
Theorem c20_exact_refuted : exists src t, parse ref_unescape 0 src = Ok t /\ src = b "(pre foo )" /\
  html_gen all_printable (fun _ => src) t = Ok (b "<pre>foo  </pre>").
Proof. exists (b "(pre foo )"). eexists. split; [vm_compute; reflexivity|]. split; [reflexivity|]. vm_compute. reflexivity. Qed.
Print Assumptions c20_exact_refuted.

Example c20_example :
  let src := b "(div (pre :id x  fn(a)  ; comment
  end))" in
  exists t, parse ref_unescape 0 src = Ok t /\
  html_gen all_printable (fun _ => src) t = Ok (b "<div><pre id=""x""> fn(a)  ; comment
  end</pre></div>").
Proof. eexists. split; [vm_compute; reflexivity|]. vm_compute. reflexivity. Qed.

(** ** C49: plain text *)

(** For a source without comments and backslashes, plain-text output is the
    source without its string quotes and trailing whitespace. *)
Theorem c49_source : forall unescape id src ns,
  (forall t, ~ In BS t -> unescape t = Some t) ->
  utf8 src -> Forall (fun c => c <> ";"%char /\ c <> BS) src ->
  parse unescape id src = Ok ns ->
  exists tail, Forall blank_char tail /\ unquoted src = unquoted (text_gen ns) ++ tail.
Proof. intros unescape id src ns H. exact (parse_text unescape H id src ns). Qed.
Print Assumptions c49_source.

(** For every tree it is what the S-expression formatter prints when strings
    and raw content are written as they are. *)
Theorem c49_sexp : forall printable t, text_gen t = sexp_gen printable (map unstrung t).
Proof. exact text_sexps. Qed.
Print Assumptions c49_sexp.

Example c49_example :
  let src := b "(p :k ""a (b"" c)  """"""say ""x"" """""" d " in
  exists ns, parse ref_unescape 0 src = Ok ns /\
    text_gen ns = b "(p :k a (b c)  say ""x""  d" /\ unquoted src = b "(p :k a (b c)  say x  d ".
Proof. eexists. split; [vm_compute; reflexivity|]. split; vm_compute; reflexivity. Qed.
