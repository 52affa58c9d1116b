(** * Model of the parser, [crates/seam/src/parse/parser.rs:404-542] *)

From Coq Require Import List Ascii Bool Arith.
From Verif Require Import Text Utf8 Res Lexer Ast.
Import ListNotations.

(** [parser.rs:521-529] [escape_sanitize]: drops every backslash. *)
Definition escape_sanitize (s : bytes) : bytes :=
  filter (fun c => negb (ch c BS)) s.

Section WithSource.
(** [parser.rs:533-542] [escape_string] calls [to_unescaped] of the external
    crate [descape]; it is a parameter here ([None]: invalid escape). *)
Variable unescape : bytes -> option bytes.
(** Identity of the source buffer. *)
Variable id : nat.

Notation consume := (consume id).
Notation peek := (peek id).

(** [parser.rs:473-485] [parse_atomic]. *)
Definition parse_atomic (s : lex) : res (atom * lex) :=
  let* '(tok, s') := consume s in
  let* value :=
    match t_kind tok with
    | KSymbol | KNumber | KKeyword => Ok (escape_sanitize (t_value tok))
    | KString =>
        match unescape (t_value tok) with
        | Some v => Ok v
        | None => Err (EErr EBadEscape (t_site tok))
        end
    | _ => Panic PUnreachable
    end in
  Ok (Atom value (t_site tok) (t_ws tok), s').

(** [parser.rs:430-517] [parse_expr], with [parse_keyword] (446-469) and
    [parse_list] (488-517) inlined; [parse_items] is the loop of
    [parse_list] (495-504), returning the elements and the closing token if
    it was found. *)
Fixpoint parse_expr (fuel : nat) (s : lex) {struct fuel} : res (node * lex) :=
  match fuel with
  | 0 => OutOfFuel
  | S f =>
    let* '(tok, s) := peek s in
    match t_kind tok with
    | KLParen =>
        let* '(lparen, s) := consume s in
        match t_kind lparen with
        | KLParen =>
            let* '(elements, rparen, s) := parse_items f s in
            match rparen with
            | None => Err (EErr EExpectedRParen (t_site lparen))
            | Some rp =>
                Ok (Lst elements (t_site lparen) (t_ws rp) (t_site rp) (t_ws lparen), s)
            end
        | _ => Panic PUnwrap
        end
    | KRParen => Err (EErr EUnexpectedRParen (t_site tok))
    | KKeyword =>
        let* '(kw, s) := consume s in
        match t_kind kw with
        | KKeyword =>
            let* '(at_eof, s) := eof s in
            if (at_eof : bool) then Err (EErr EKeywordNoValue (t_site kw)) else
            let* '(next, s) := peek s in
            match t_kind next with
            | KRParen => Err (EErr EKeywordNoValue (t_site kw))
            | _ =>
                let* '(value, s) := parse_expr f s in
                Ok (Attr (t_value kw) value (t_site kw) (t_ws kw), s)
            end
        | _ => Panic PUnwrap
        end
    | KSymbol => let* '(a, s) := parse_atomic s in Ok (Sym a, s)
    | KString => let* '(a, s) := parse_atomic s in Ok (Str a, s)
    | KNumber => let* '(a, s) := parse_atomic s in Ok (Num a, s)
    end
  end
with parse_items (fuel : nat) (s : lex) {struct fuel}
  : res (list node * option token * lex) :=
  match fuel with
  | 0 => OutOfFuel
  | S f =>
    let* '(at_eof, s) := eof s in
    if (at_eof : bool) then Ok ([], None, s) else
    let* '(tok, s) := peek s in
    match t_kind tok with
    | KRParen =>
        let* '(rp, s) := consume s in Ok ([], Some rp, s)
    | _ =>
        let* '(e, s) := parse_expr f s in
        let* '(es, rp, s) := parse_items f s in
        Ok (e :: es, rp, s)
    end
  end.

(** [parser.rs:420-427] the loop of [parse]. *)
Fixpoint parse_loop (fuel : nat) (s : lex) : res (list node) :=
  match fuel with
  | 0 => OutOfFuel
  | S f =>
    let* '(at_eof, s) := eof s in
    if (at_eof : bool) then Ok [] else
    let* '(e, s) := parse_expr f s in
    let* es := parse_loop f s in
    Ok (e :: es)
  end.

(** Recursion budget that suffices for a source (proved: C01). *)
Definition parse_fuel (source : bytes) : nat := 2 * length source + 2.

(** [parser.rs:420-427] [Parser::parse] on a fresh lexer. *)
Definition parse (source : bytes) : res tree :=
  parse_loop (parse_fuel source) (lex_new source).
End WithSource.
