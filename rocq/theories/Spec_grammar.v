(** * Specification: the S-expression grammar of Seam source text

    Independent of the lexer and parser models.  A derivation relates the
    text to a tree without source positions, but with atom values and
    leading whitespace. *)

From Coq Require Import List Ascii Bool Arith.
From Verif Require Import Text.
Import ListNotations.

(** Trees without positions. *)
Inductive stree :=
| SSym (ws v : bytes)
| SNum (ws v : bytes)
| SStr (ws v : bytes)
| SRaw (ws v : bytes)
| SList (ws : bytes) (items : list stree) (end_ws : bytes)
| SAttr (ws keyword : bytes) (value : stree).

(** Character classes. *)
Definition blank_char (c : ascii) : Prop :=
  c = LF \/ c = CR \/ c = TAB \/ c = " "%char.
Definition delimiter (c : ascii) : Prop :=
  blank_char c \/ c = "("%char \/ c = ")"%char \/ c = DQ.
(** A character that stands for itself inside an identifier. *)
Definition plain (c : ascii) : Prop := ~ delimiter c /\ c <> BS.
Definition digit (c : ascii) : Prop := 48 <= nat_of_ascii c <= 57.
Definition number_start (c : ascii) : Prop := digit c \/ c = "+"%char \/ c = "-"%char.
Definition symbol_start (c : ascii) : Prop :=
  ~ delimiter c /\ ~ number_start c /\ c <> ":"%char /\ c <> ";"%char.

(** [Blank t w]: [t] is a run of whitespace and complete comments; [w] is the
    whitespace reported for the token that follows: everything from the
    newline that ends the last comment. *)
Inductive Blank : bytes -> bytes -> Prop :=
| blank_ws : forall w, Forall blank_char w -> Blank w w
| blank_comment : forall t w' body w,
    Blank t w' -> ~ In LF body -> Forall blank_char w ->
    Blank (t ++ ";"%char :: body ++ LF :: w) (LF :: w).

(** What may follow the last expression. *)
Inductive Trailing : bytes -> Prop :=
| trail_blank : forall t w, Blank t w -> Trailing t
| trail_comment : forall t w body,
    Blank t w -> ~ In LF body -> Trailing (t ++ ";"%char :: body).

(** Identifier text: plain characters and backslash-escaped characters. *)
Inductive Ident : bytes -> Prop :=
| id_nil : Ident []
| id_plain : forall c t, plain c -> Ident t -> Ident (c :: t)
| id_esc : forall c t, Ident t -> Ident (BS :: c :: t).

(** An identifier extends as far as it can. *)
Definition stops (rest : bytes) : Prop :=
  match rest with [] => True | c :: _ => delimiter c end.

(** The value of an identifier: its text without backslashes. *)
Definition unbackslash (t : bytes) : bytes := filter (fun c => negb (ch c BS)) t.

(** Inside of an ordinary string. *)
Inductive StrBody : bytes -> Prop :=
| sb_nil : StrBody []
| sb_char : forall c t, c <> DQ -> c <> BS -> StrBody t -> StrBody (c :: t)
| sb_esc : forall c t, StrBody t -> StrBody (BS :: c :: t).

Definition quote3 : bytes := [DQ; DQ; DQ].

(** Inside of a triple-quoted string: ends at the first unescaped [quote3]. *)
Inductive TripleBody : bytes -> Prop :=
| tb_nil : TripleBody []
| tb_char : forall c t, c <> BS ->
    (forall r, c :: t ++ quote3 <> quote3 ++ r) -> TripleBody t -> TripleBody (c :: t)
| tb_esc : forall c t, TripleBody t -> TripleBody (BS :: c :: t).

(** Token level: [TokText txt k v rest]: [txt], followed by [rest], is a token
    of kind [k] with value [v]. *)
Inductive tkind := TLParen | TRParen | TSymbol | TString | TNumber | TKeyword.
Inductive TokText : bytes -> tkind -> bytes -> bytes -> Prop :=
| tt_lparen : forall rest, TokText ["("%char] TLParen ["("%char] rest
| tt_rparen : forall rest, TokText [")"%char] TRParen [")"%char] rest
| tt_sym : forall c t rest, symbol_start c -> Ident (c :: t) -> stops rest ->
    TokText (c :: t) TSymbol (c :: t) rest
| tt_num : forall c t rest, number_start c -> Ident (c :: t) -> stops rest ->
    TokText (c :: t) TNumber (c :: t) rest
| tt_kw : forall t rest, Ident t -> stops rest ->
    TokText (":"%char :: t) TKeyword t rest
| tt_str : forall t rest, StrBody t -> ~ (t = [] /\ exists r, rest = DQ :: r) ->
    TokText (DQ :: t ++ [DQ]) TString t rest
| tt_triple : forall t rest, TripleBody t ->
    TokText (quote3 ++ t ++ quote3) TString t rest.

Section Grammar.
(** The meaning of escapes inside strings (external crate). *)
Variable unescape : bytes -> option bytes.

(** [Expr text e rest]: an expression [e] is a prefix of [text] and [rest] is
    what follows it. *)
Inductive Expr : bytes -> stree -> bytes -> Prop :=
| e_sym : forall bl w c t rest,
    Blank bl w -> symbol_start c -> Ident (c :: t) -> stops rest ->
    Expr (bl ++ (c :: t) ++ rest) (SSym w (unbackslash (c :: t))) rest
| e_num : forall bl w c t rest,
    Blank bl w -> number_start c -> Ident (c :: t) -> stops rest ->
    Expr (bl ++ (c :: t) ++ rest) (SNum w (unbackslash (c :: t))) rest
| e_str : forall bl w t v rest,
    Blank bl w -> StrBody t -> unescape t = Some v ->
    ~ (t = [] /\ exists r, rest = DQ :: r) ->
    Expr (bl ++ DQ :: t ++ DQ :: rest) (SStr w v) rest
| e_triple : forall bl w t v rest,
    Blank bl w -> TripleBody t -> unescape t = Some v ->
    Expr (bl ++ quote3 ++ t ++ quote3 ++ rest) (SStr w v) rest
| e_attr : forall bl w t mid v rest,
    Blank bl w -> Ident t -> stops mid -> Expr mid v rest ->
    Expr (bl ++ ":"%char :: t ++ mid) (SAttr w t v) rest
| e_list : forall bl w mid es ew rest,
    Blank bl w -> Items mid es ew rest ->
    Expr (bl ++ "("%char :: mid) (SList w es ew) rest
with Items : bytes -> list stree -> bytes -> bytes -> Prop :=
| i_end : forall bl w rest,
    Blank bl w -> Items (bl ++ ")"%char :: rest) [] w rest
| i_cons : forall s e mid es ew rest,
    Expr s e mid -> Items mid es ew rest -> Items s (e :: es) ew rest.

(** A whole source. *)
Inductive Program : bytes -> list stree -> Prop :=
| p_end : forall t, Trailing t -> Program t []
| p_cons : forall s e mid es, Expr s e mid -> Program mid es -> Program s (e :: es).

(** Sources that break off inside an identifier, right after a backslash:
    [Dangling text] holds when [text] reads as complete expressions, possibly
    inside open parentheses or after keywords, up to an identifier whose last
    character is a backslash escaping nothing. *)
Inductive CutIdent : bytes -> Prop :=
| cut_ident : forall t, Ident t -> (forall r, t <> ";"%char :: r) -> CutIdent (t ++ [BS]).
Inductive DanglingExpr : bytes -> Prop :=
| d_here : forall bl w x, Blank bl w -> CutIdent x -> DanglingExpr (bl ++ x)
| d_list : forall bl w mid, Blank bl w -> Dangling mid ->
    DanglingExpr (bl ++ "("%char :: mid)
| d_attr : forall bl w t mid, Blank bl w -> Ident t -> stops mid ->
    DanglingExpr mid -> DanglingExpr (bl ++ ":"%char :: t ++ mid)
with Dangling : bytes -> Prop :=
| d_expr : forall s, DanglingExpr s -> Dangling s
| d_skip : forall s e mid, Expr s e mid -> Dangling mid -> Dangling s.
End Grammar.

(** ** Token sequences *)

(** [Tokens src toks]: [src] is the tokens [toks] (kind and value), with
    whitespace and comments in between and at the end. *)
Inductive Tokens : bytes -> list (tkind * bytes) -> Prop :=
| ts_end : forall t, Trailing t -> Tokens t []
| ts_cons : forall bl w txt k v rest toks,
    Blank bl w -> TokText txt k v rest -> Tokens rest toks ->
    Tokens (bl ++ txt ++ rest) ((k, v) :: toks).

(** [TokenPrefix src toks rest]: reading the tokens [toks] from [src] leaves
    [rest]. *)
Inductive TokenPrefix : bytes -> list (tkind * bytes) -> bytes -> Prop :=
| tp_nil : forall rest, TokenPrefix rest [] rest
| tp_cons : forall bl w txt k v mid toks rest,
    Blank bl w -> TokText txt k v mid -> TokenPrefix mid toks rest ->
    TokenPrefix (bl ++ txt ++ mid) ((k, v) :: toks) rest.
