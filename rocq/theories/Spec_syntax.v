(** * Specification of syntax errors

    Which defect of a source text is reported, and where.  The place is given
    by the part of the text that begins there and by the number of bytes
    marked. *)

From Coq Require Import List Ascii Bool Arith.
From Verif Require Import Text Res Spec_grammar.
Import ListNotations.

(** The next thing in the text, after whitespace and comments, is a closing
    parenthesis. *)
Definition closes (x : bytes) : Prop :=
  exists bl w r, Blank bl w /\ x = bl ++ ")"%char :: r.

Section Defects.
Variable unescape : bytes -> option bytes.

(** [BadExpr x k here n]: where an expression is due, [x] has the defect [k];
    it is in the first [n] bytes of [here], a suffix of [x]. *)
Inductive BadExpr : bytes -> ekind -> bytes -> nat -> Prop :=
(** A closing parenthesis that closes nothing. *)
| b_close : forall bl w r, Blank bl w ->
    BadExpr (bl ++ ")"%char :: r) EUnexpectedRParen (")"%char :: r) 1
(** A quote with no matching one: the first quote is marked. *)
| b_string : forall bl w r, Blank bl w ->
    (forall r', DQ :: r <> quote3 ++ r') ->
    (forall t rest, StrBody t -> r <> t ++ DQ :: rest) ->
    BadExpr (bl ++ DQ :: r) EUnclosedString (DQ :: r) 1
(** Three quotes without matching ones. *)
| b_triple : forall bl w r, Blank bl w ->
    (forall t rest, TripleBody t -> r <> t ++ quote3 ++ rest) ->
    BadExpr (bl ++ quote3 ++ r) EUnclosedTriple (quote3 ++ r) 3
(** A string with an escape that has no meaning: the string is marked. *)
| b_escape : forall bl w txt t rest, Blank bl w ->
    TokText txt TString t rest -> unescape t = None ->
    BadExpr (bl ++ txt ++ rest) EBadEscape (txt ++ rest) (length txt)
(** A keyword at the end of the text or of a list: the keyword is marked. *)
| b_no_value : forall bl w t mid, Blank bl w -> Ident t -> stops mid ->
    Trailing mid \/ closes mid ->
    BadExpr (bl ++ ":"%char :: t ++ mid) EKeywordNoValue (":"%char :: t ++ mid) (S (length t))
(** A defect in the value of a keyword. *)
| b_value : forall bl w t mid k here n, Blank bl w -> Ident t -> stops mid ->
    ~ closes mid -> BadExpr mid k here n ->
    BadExpr (bl ++ ":"%char :: t ++ mid) k here n
(** An opening parenthesis, after which there are only complete expressions:
    the parenthesis is marked. *)
| b_open : forall bl w mid es, Blank bl w -> Program unescape mid es ->
    BadExpr (bl ++ "("%char :: mid) EExpectedRParen ("("%char :: mid) 1
(** A defect inside a list. *)
| b_list : forall bl w mid k here n, Blank bl w -> BadItems mid k here n ->
    BadExpr (bl ++ "("%char :: mid) k here n
(** The same after some complete expressions of a list. *)
with BadItems : bytes -> ekind -> bytes -> nat -> Prop :=
| bi_here : forall x k here n, ~ closes x -> BadExpr x k here n -> BadItems x k here n
| bi_skip : forall x e mid k here n, Expr unescape x e mid -> BadItems mid k here n ->
    BadItems x k here n.

(** The first defect of a source text: only complete expressions before it. *)
Inductive BadProgram : bytes -> ekind -> bytes -> nat -> Prop :=
| bp_here : forall x k here n, BadExpr x k here n -> BadProgram x k here n
| bp_skip : forall x e mid k here n, Expr unescape x e mid -> BadProgram mid k here n ->
    BadProgram x k here n.
End Defects.
