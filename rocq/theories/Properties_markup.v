(** * Properties of the text written for a tree (C68) *)

From Coq Require Import String List Ascii Bool Arith NArith.
From Verif Require Import Text Utf8 Res Ast Parser Debug Env State Format Expander Cli Runs Spec_tree Spec_print Spec_markup
  Spec_css Spec_element Spec_keep Proofs_text Proofs_sheet Proofs_element Proofs_html Proofs_cli Proofs_seam Properties_state.
Import ListNotations.

(** ** C68: what is written for a tree in each language, or why it is not *)

(** Plain text and S-expressions. *)
Theorem c68_text : forall t s, text_gen t = s <-> TextOf t s.
Proof. exact text_of. Qed.
Print Assumptions c68_text.
Theorem c68_sexp : forall printable t, Forall utf8 (flat_map values t) -> forall s,
  sexp_gen printable t = s <-> SexpOf printable t s.
Proof. exact sexp_of. Qed.
Print Assumptions c68_sexp.
Theorem c68_shown : forall printable n, Forall utf8 (values n) -> forall s,
  display_node printable n = s <-> ShownAs printable n s.
Proof. exact shown_as. Qed.
Print Assumptions c68_shown.

(** XML: the text, or the first fault. *)
Theorem c68_xml : forall t r,
  xml_gen t = r <-> match r with Ok s => XmlAll false t s | _ => NoXmlAll t r end.
Proof. exact xml_gen_iff. Qed.
Print Assumptions c68_xml.

(** HTML. *)
Theorem c68_html : forall printable sources t, Forall utf8 (flat_map values t) -> forall r,
  html_gen printable sources t = r <->
  match r with Ok s => HtmlAll printable sources false t s | _ => NoHtmlAll printable sources t r end.
Proof. exact html_gen_iff. Qed.
Print Assumptions c68_html.

(** Lower case, of ASCII letters only. *)
Theorem c68_lower_case : forall s t, to_lower s = t <-> in_lower_case s t.
Proof. exact lower_case. Qed.
Print Assumptions c68_lower_case.
Example c68_cases : in_lower_case (b "AZaz@[-1") (b "azaz@[-1").
Proof. apply lower_case. reflexivity. Qed.

(** The output for an expanded program. *)
Theorem c68_program : forall E path text f t s printable target r, textual E -> utf8 text ->
  expand E f path text = Ok (t, s) -> In target (map b ["text"; "sexp"; "html"; "xml"; "css"]%string) ->
  (formatted printable target false t s = inl r <->
   WrittenAs printable (fun i => snd (nth i (srcs s) ([], []))) t target r).
Proof.
  intros E path text f t s printable target r T U H I. destruct (c53_text E path text f t s T U H) as [V _].
  destruct (renders_formatted printable target false t s I) as [q [-> R]]. split.
  - intros Q. injection Q as <-. apply written_renders; [exact V|exact R].
  - intros W. apply written_renders in W; [|exact V]. f_equal. eapply renders_fun; eassumption.
Qed.
Print Assumptions c68_program.

Definition written (target : string) (src : bytes) : option (res bytes + nat) :=
  match expand env1 60 (b "f.sex") src with
  | Ok (t, s) => Some (formatted (fun _ => true) (b target) false t s)
  | _ => None
  end.

Example c68_example_html : written "html" (b "(!DOCTYPE html)
(DIV :id 3  :class ""x y""
  (br :k v) a<b (%raw ""<i>"") (pre  a  (b c) ) (Title a (b ""c""))
  (style (p :x 1)) (style ""a<b"") (script (f ""a"")) (svg (?x :a 1 b) (g :k v 1 & 2)))") =
  Some (inl (Ok (b "<!DOCTYPE html>
<DIV id=""3""  class=""x y"">
  <br k=""v""> a&lt;b <i> <pre> a  (b c)  </pre> <Title>a (b c)</title>
  <style>
p {
  x: 1;
}
  </style> <style>a<b </style> <script>(f ""a"")</script> <svg><?x a=""1""b ?> <g k=""v"">1 &amp; 2</g></svg>
</div>"))).
Proof. vm_compute. reflexivity. Qed.
Example c68_example_faults :
  written "html" (b "(p (br x) ())") = Some (inl (Err (EErr EHtmlVoidChildren (Site 0 1 7 7 1)))) /\
  written "html" (b "(p a (style ""x"" y))") = Some (inl (Err (EErr EHtmlStyle (Site 0 1 12 12 3)))) /\
  written "html" (b "(p a :k v)") = Some (inl (Err (EErr EHtmlAttribute (Site 0 1 5 5 2)))) /\
  written "xml" (b "(p :k (a) (%raw x))") = Some (inl (Err (EErr EXmlAttrValue (Site 0 1 6 6 1)))) /\
  written "xml" (b "(p (%raw x) ())") = Some (inl (Err (EErr EXmlRaw (Site 0 1 3 3 1)))) /\
  written "html" (b "(p ("""" x))") = Some (inl (Err (EErr EHtmlHeadNotSymbol (Site 0 1 4 4 2)))).
Proof. repeat split; vm_compute; reflexivity. Qed.
Example c68_example_text : written "text" (b "(a :k ""x"" (%raw y))") = Some (inl (Ok (b "(a :k x y)"))) /\
  written "sexp" (b "(a :k ""x"" (%raw y))") = Some (inl (Ok (b "(a :k ""x"" (%raw ""y""))"))).
Proof. split; vm_compute; reflexivity. Qed.
