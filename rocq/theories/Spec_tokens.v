(** * Specification of token streams and source positions *)

From Coq Require Import List Ascii Bool Arith.
From Verif Require Import Text Utf8 Res Lexer Spec_grammar.
Import ListNotations.

(** Successive calls of the lexer. *)
Inductive Reads (id : nat) : lex -> list token -> lex -> Prop :=
| reads_nil : forall s, Reads id s [] s
| reads_cons : forall s tok s1 toks s2,
    consume id s = Ok (tok, s1) -> Reads id s1 toks s2 -> Reads id s (tok :: toks) s2.

(** The grammar's names for token kinds. *)
Definition spec_kind (k : kind) : tkind :=
  match k with
  | KLParen => TLParen | KRParen => TRParen | KSymbol => TSymbol
  | KString => TString | KNumber => TNumber | KKeyword => TKeyword
  end.

(** First byte after a site, and the text it covers. *)
Definition site_end (st : site) : nat := s_off st + s_span st.
Definition covered (src : bytes) (st : site) : bytes := slice (s_off st) (site_end st) src.

(** [Tiled src p toks q]: between positions [p] and [q] of [src] there are
    exactly the tokens [toks], separated by whitespace and comments; each one
    covers precisely the bytes that spell it. *)
Inductive Tiled (src : bytes) : nat -> list token -> nat -> Prop :=
| tiled_nil : forall p, Tiled src p [] p
| tiled_cons : forall p tok toks q,
    let st := t_site tok in
    p <= s_off st -> site_end st <= length src ->
    Blank (slice p (s_off st) src) (t_ws tok) ->
    TokText (covered src st) (spec_kind (t_kind tok)) (t_value tok) (skipn (site_end st) src) ->
    utf8 (firstn (s_off st) src) -> utf8 (covered src st) ->
    Tiled src (site_end st) toks q ->
    Tiled src p (tok :: toks) q.

(** [col] is the distance from [off] back to the start of its line. *)
Definition line_start (src : bytes) (off col : nat) : Prop :=
  col <= off /\
  ~ In LF (slice (off - col) off src) /\
  (off - col = 0 \/ nth_error src (off - col - 1) = Some LF).

(** A site inside the source, on character boundaries, with exact byte
    column. *)
Definition site_ok (src : bytes) (st : site) : Prop :=
  site_end st <= length src /\
  utf8 (firstn (s_off st) src) /\ utf8 (covered src st) /\
  line_start src (s_off st) (s_col st).

(** Newlines inside the given tokens. *)
Definition inner_newlines (src : bytes) (toks : list token) : nat :=
  list_sum (map (fun t => newlines (covered src (t_site t))) toks).

(** The line number the lexer reports for [tok] after the tokens [before]. *)
Definition reported_line (src : bytes) (before : list token) (tok : token) : nat :=
  1 + newlines (firstn (s_off (t_site tok)) src) + inner_newlines src before +
  match t_kind tok with
  | KString => 0
  | _ => 2 * newlines (covered src (t_site tok))
  end.
