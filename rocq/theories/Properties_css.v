(** * Properties of style sheets (C66) *)

From Coq Require Import String List Ascii Bool Arith NArith.
From Verif Require Import Text Utf8 Res Ast Parser Debug Format Runs Spec_tree Spec_print Spec_output Spec_css
  Proofs_text Proofs_white Proofs_sheet.
Import ListNotations.

(** ** C66: the CSS written for a tree *)

(** The text of a value, and what keeps a tree from being one. *)
Theorem c66_value : forall printable n, Forall utf8 (values n) -> forall r,
  css_value printable n = r <->
  match r with
  | Ok s => Value printable n s
  | Err e => exists st, e = EErr ECssAttrInValue st /\ NoValue printable n st
  | _ => False
  end.
Proof. exact value_iff. Qed.
Print Assumptions c66_value.

(** The whole sheet, and what stops it: its first fault. *)
Theorem c66_sheet : forall printable t, Forall utf8 (flat_map values t) -> forall r,
  css_gen printable t = r <-> match r with Ok s => Rules printable t s | _ => NoSheet printable t r end.
Proof. exact sheet_iff. Qed.
Print Assumptions c66_sheet.

(** As a document: the same, and a line feed for nothing. *)
Theorem c66_document : forall printable t, Forall utf8 (flat_map values t) -> forall r,
  css_document printable t = r <->
  match r with
  | Ok s => (t = [] /\ s = [LF]) \/ (t <> [] /\ Rules printable t s)
  | _ => NoSheet printable t r
  end.
Proof.
  intros printable t U r. destruct t as [|n t].
  - cbn [css_document]. destruct r as [s|e|p| |].
    + split; [intros H; left; split; congruence|]. intros [[_ ->]|[H _]]; [reflexivity|contradiction].
    + split; [discriminate|]. intros H. inversion H; destruct l; discriminate.
    + split; [discriminate|]. intros H. inversion H; destruct l; discriminate.
    + split; [discriminate|]. intros H. inversion H; destruct l; discriminate.
    + split; [discriminate|]. intros H. inversion H; destruct l; discriminate.
  - cbn [css_document]. rewrite (c66_sheet printable (n :: t) U r). destruct r; try reflexivity.
    split; [intros H; right; split; [discriminate|exact H]|]. intros [[H _]|[_ H]]; [discriminate H|exact H].
Qed.
Print Assumptions c66_document.

(** Trimming and the test for white space are as specified, on all texts. *)
Theorem c66_trim : forall s t, trim s = t <-> trimmed s t.
Proof. intros s t. split; [intros <-; apply trim_trimmed|apply trimmed_trim]. Qed.
Print Assumptions c66_trim.
Theorem c66_white : forall s, has_white s = true <-> contains_white s.
Proof. exact has_white_iff. Qed.
Print Assumptions c66_white.

(** Quotation of strings, in CSS and in S-expressions. *)
Theorem c66_quoted : forall printable s, utf8 s -> forall q, debug_str printable s = q <-> quoted printable s q.
Proof. intros printable s U q. split; [intros <-; apply debug_quoted, U|symmetry; apply quoted_debug; assumption]. Qed.
Print Assumptions c66_quoted.

Definition all_printable (c : bytes) : bool := true.
Definition sheet (src : bytes) : res bytes := let* t := parse ref_unescape 0 src in css_gen all_printable t.

Example c66_example : sheet (b "(@import (url a.css) :media print)
(@media screen :min-width 3em (p > a :color (rgba 1 2 3 (/ 1 2)) :font ""My Font""))
(@font-face :src (url x) (format y))") = Err (EErr ECssNotProperty (Site 0 3 143 25 1)) /\
  sheet (b "(@import (url a.css) :media print)
(@media screen :min-width 3em (p > a :color (rgba 1 2 3 (/ 1 2)) :font ""My Font""))
(p b :x (f) :y ())") = Ok (b "@import url(a.css) (media: print) ;

@media screen (min-width: 3em) {
 p > a {
  color: rgba(1, 2, 3, (1 / 2));
  font: ""My Font"";
}}
p b {
  x: f ;
  y: ;
}").
Proof. split; vm_compute; reflexivity. Qed.
(** A no-break space counts as white space; control characters are escaped. *)
Example c66_example_white :
  css_value all_printable (Sym (Atom (b "a" ++ encode 160 ++ ["007"%char]) (Site 0 1 0 0 1) [])) =
    Ok ([DQ] ++ b "a" ++ encode 160 ++ b "\u{7}" ++ [DQ]) /\
  Forall utf8 (values (Sym (Atom (b "a" ++ encode 160 ++ ["007"%char]) (Site 0 1 0 0 1) []))).
Proof.
  split; [vm_compute; reflexivity|]. constructor; [|constructor]. cbn [a_val].
  apply (utf8_app ["a"%char]); [reflexivity|]. apply utf8_app; [reflexivity|].
  apply (utf8_app ["007"%char] []); [reflexivity|constructor].
Qed.
