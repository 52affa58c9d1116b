(** * Specification of error reports *)

From Coq Require Import String List Ascii Bool Arith.
From Verif Require Import Text Utf8 Res Numbers Lexer Spec_tokens Report.
Import ListNotations.

(** The line of [src] that contains position [off]: [left] is the part of it
    before the position, [right] the part after it. *)
Definition line_at (src : bytes) (off : nat) (left right : bytes) : Prop :=
  exists before after, src = before ++ left ++ right ++ after /\
    off = length (before ++ left) /\ ~ In LF (left ++ right) /\
    (before = [] \/ exists x, before = x ++ [LF]) /\ (after = [] \/ exists x, after = LF :: x).

(** The three lines of a report about the text [marked], which begins between
    [left] and [right] on line [n]. *)
Definition gutter (n : nat) : bytes := b "  " ++ show_nat n ++ b " |".
Definition first_line (n : nat) (left right : bytes) : bytes := gutter n ++ b " " ++ left ++ right ++ [LF].
Definition before_mark (D : screen) (n : nat) (left : bytes) : bytes :=
  repeat " "%char (d_width D (gutter n) - 1) ++ b "| " ++ repeat "~"%char (d_width D left).
Definition second_line (D : screen) (n : nat) (left marked : bytes) : bytes :=
  before_mark D n left ++ repeat "^"%char (d_width D marked) ++ [LF].
Definition place (D : screen) (path : bytes) (n : nat) (left : bytes) : bytes :=
  b "(" ++ path ++ b ":" ++ show_nat n ++ b ":" ++ show_nat (d_width D left + 1) ++ b ")".
Definition third_line (D : screen) (k : ekind) (place msg : bytes) : bytes :=
  let stars := d_paint D SRedBold (b "**") in
  match origin_of k with
  | OLexer => b "[**] Lexical Error " ++ place
  | OParser => b "[**] Parse Error " ++ place
  | OExpander => b "[" ++ stars ++ b "] Error Expanding Macro " ++ place
  | OGenerator markup =>
      d_paint D SBlack (b "[" ++ stars ++ b "] Error Generating " ++ d_paint D SBold markup ++ b " " ++ place)
  end ++ b ": " ++ msg.
(** A line in the log about the words [words]. *)
Definition full_line (D : screen) (path : bytes) (n : nat) (left words : bytes) : bytes :=
  d_paint D SBold (b "[#]") ++ b " " ++ d_paint D SYellowBold (b "log") ++ b " " ++ place D path n left ++
  b ": " ++ words ++ [LF].
Definition full_report (D : screen) (k : ekind) (path msg : bytes) (n : nat) (left right marked : bytes) : bytes :=
  first_line n left right ++ second_line D n left marked ++ third_line D k (place D path n left) msg.

(** The language that an error of a formatter is announced under. *)
Definition announced : list (bytes * list ekind) :=
  [(b "XML", [EXmlRaw; EXmlEmptyList; EXmlHeadNotSymbol; EXmlAttrValue; EXmlDeclNode]);
   (b "HTML", [EHtmlAttribute; EHtmlEmptyList; EHtmlHeadNotSymbol; EHtmlAttrValue; EHtmlDeclNode; EHtmlVoidChildren]);
   (b "HTML+CSS", [EHtmlStyle]);
   (b "CSS-value", [ECssAttrInValue]);
   (b "CSS", [ECssNotRule; ECssNotProperty; ECssSpecialBad])].
(** The languages that can occur in the output for a target. *)
Inductive occurs_in : bytes -> bytes -> Prop :=
| oi_xml : occurs_in (b "XML") (b "xml")
| oi_css m : In m [b "CSS-value"; b "CSS"] -> occurs_in m (b "css")
| oi_html m : In m (map fst announced) -> occurs_in m (b "html").

(** The widths needed are accepted by the standard library. *)
Definition fitting (D : screen) (n : nat) (left marked : bytes) : bool :=
  d_fits D (d_width D (gutter n)) && d_fits D (d_width D left) && d_fits D (d_width D marked).

(** A display where every character is as wide as its bytes are many, as on
    ASCII texts, and without colours. *)
Definition plain (limit : nat) : screen := Screen (@List.length ascii) (fun n => n <=? limit) (fun _ x => x).

(** Printable ASCII characters are one column wide, also in front of other
    text. *)
Definition printable_ascii (c : ascii) : Prop := 32 <= nat_of_ascii c <= 126.
Record ascii_width (D : screen) : Prop := AsciiWidth {
  aw_text : forall x, Forall printable_ascii x -> d_width D x = length x;
  aw_front : forall x y, Forall printable_ascii x -> d_width D (x ++ y) = length x + d_width D y
}.
