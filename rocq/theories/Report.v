(** * Model of error reports

    The [Display] implementations of the four error types, which produce the
    text shown to the user ([eprintln!("{}", e)], [bin.rs:102], [129]), and the
    lines written by [%log].

    Simplification: the source an error points into is given.  In the code it
    is reached through a reference, and the texts of files included inside a
    [%for], [%match], [%namespace] or macro body are freed when that body ends
    ([g_freed] in [State]); a report about such a text reads freed memory, and
    nothing is claimed about it. *)

From Coq Require Import String List Ascii Bool Arith.
From Verif Require Import Text Res Numbers Lexer Format.
Import ListNotations.

(** Styles of the [colored] crate; which bytes they become depends on the
    terminal. *)
Inductive style := SRedBold | SYellowBold | SBold | SBlack.

(** What the reports depend on. *)
Record screen := Screen {
  (* [UnicodeWidthStr::width] *)
  d_width : bytes -> nat;
  (* is this a width the formatting machinery of the standard library
     accepts?  Since Rust 1.87 a width given as an argument ([{:>n$}]) above
     65535 panics, before that every width is accepted *)
  d_fits : nat -> bool;
  d_paint : style -> bytes -> bytes
}.

Section Report.
Variable D : screen.

(** [usize] subtraction (debug builds; a release build wraps around and then
    panics on the slice or runs out of memory on the padding). *)
Definition usize_sub (x y : nat) : res nat := if y <=? x then Ok (x - y) else Panic POverflow.

(** [tokens.rs:55-57] [Site::start_of_line]. *)
Definition start_of_line (st : site) : res nat := usize_sub (s_off st) (s_col st).

(** [tokens.rs:81-83] [Site::line_slice]. *)
Definition line_slice (src : bytes) (st : site) : res bytes :=
  let* start := start_of_line st in str_slice src start (site_end_of_line src st).

(** [tokens.rs:87-90] [Site::width]. *)
Definition site_width (src : bytes) (st : site) : res nat :=
  let* text := str_slice src (s_off st) (s_off st + s_span st) in Ok (d_width D text).

(** [tokens.rs:95-98] [Site::line_column]. *)
Definition line_column (src : bytes) (st : site) : res nat :=
  let* start := start_of_line st in
  let* text := str_slice src start (s_off st) in Ok (d_width D text + 1).

(** [{:c>n$}] applied to a text of [len] characters. *)
Definition padded (c : ascii) (n len : nat) (text : bytes) : res bytes :=
  if d_fits D n then Ok (repeat c (n - len) ++ text) else Panic PExplicit.

(** [lexer.rs:15-22], [parser.rs:390-397], [expander.rs:43-50],
    [assemble/mod.rs:30-36]: the first two lines, the same in all four. *)
Definition excerpt (src : bytes) (st : site) : res bytes :=
  let prefix := b "  " ++ show_nat (s_line st) ++ b " |" in
  let* line := line_slice src st in
  let* column := line_column src st in
  let* text_offset := usize_sub column 1 in
  let* length := site_width src st in
  let* bar := padded " " (d_width D prefix) 1 (b "|") in
  let* tildes := padded "~" text_offset 0 [] in
  let* carets := padded "^" length 0 [] in
  Ok (prefix ++ b " " ++ line ++ [LF] ++ bar ++ b " " ++ tildes ++ carets ++ [LF]).

(** [tokens.rs:111-117] [Display for Site]. *)
Definition show_site (path src : bytes) (st : site) : res bytes :=
  let* column := line_column src st in
  Ok (b "(" ++ path ++ b ":" ++ show_nat (s_line st) ++ b ":" ++ show_nat column ++ b ")").

(** [expander.rs:1003-1004]: a line written by [%log] on standard error. *)
Definition log_text (path src : bytes) (st : site) (words : bytes) : res bytes :=
  let* site := show_site path src st in
  Ok (d_paint D SBold (b "[#]") ++ b " " ++ d_paint D SYellowBold (b "log") ++ b " " ++ site ++ b ": " ++
      words ++ [LF]).

(** Which error type a kind of error belongs to; for [GenerationError]s, the
    field [markup]. *)
Inductive origin := OLexer | OParser | OExpander | OGenerator (markup : bytes).
Definition origin_of (k : ekind) : origin :=
  match k with
  | EUnclosedTriple | EUnclosedString | EBadEscape => OLexer
  | EUnexpectedRParen | EExpectedRParen | EKeywordNoValue => OParser
  | EXmlAttribute | EXmlRaw | EXmlEmptyList | EXmlHeadNotSymbol | EXmlAttrValue
  | EXmlDeclNode => OGenerator (b "XML")
  | EHtmlAttribute | EHtmlEmptyList | EHtmlHeadNotSymbol | EHtmlAttrValue
  | EHtmlDeclNode | EHtmlVoidChildren => OGenerator (b "HTML")
  | EHtmlStyle => OGenerator (b "HTML+CSS")
  | ECssAttrInValue => OGenerator (b "CSS-value")
  | ECssEmptyFunction | ECssHeadNotSymbol
  | ECssNotRule | ECssSelectorNotAtomic | ECssNotProperty | ECssSpecialBad => OGenerator (b "CSS")
  | _ => OExpander
  end.

(** The last line: [lexer.rs:22], [parser.rs:397-398], [expander.rs:51-52],
    [assemble/mod.rs:37-45].  The message itself is a parameter. *)
Definition headline (o : origin) (path src : bytes) (st : site) (msg : bytes) : res bytes :=
  let* site := show_site path src st in
  Ok (match o with
      | OLexer => b "[**] Lexical Error " ++ site
      | OParser => b "[**] Parse Error " ++ site
      | OExpander => b "[" ++ d_paint D SRedBold (b "**") ++ b "] Error Expanding Macro " ++ site
      | OGenerator markup =>
          d_paint D SBlack
            (b "[" ++ d_paint D SRedBold (b "**") ++ b "] Error Generating " ++ d_paint D SBold markup ++
             b " " ++ site)
      end ++ b ": " ++ msg).

(** [Display::fmt] of an error whose site refers to source [src] of file
    [path]. *)
Definition report (path src msg : bytes) (e : err) : res bytes :=
  let '(EErr k st) := e in
  let* lines := excerpt src st in
  let* head := headline (origin_of k) path src st msg in
  Ok (lines ++ head).
End Report.
