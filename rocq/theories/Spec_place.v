(** * Specification of source positions in trees

    The grammar of Spec_grammar.v once more, now for trees with positions: a
    derivation says from which token every part of a tree comes, and where in
    the source that token is. *)

From Coq Require Import List Ascii Bool Arith.
From Verif Require Import Text Res Ast Spec_grammar.
Import ListNotations.

(** A place in a source: the text before and after it, and by how much the
    line numbers are ahead of the truth (a newline inside a token counts
    twice, see C04). *)
Record cursor := Cursor { behind : bytes; surplus : nat; ahead : bytes }.
Definition beginning (src : bytes) : cursor := Cursor [] 0 src.

(** Number of bytes since the last newline. *)
Definition column (before : bytes) : nat :=
  fold_left (fun k c => if ch c LF then 0 else S k) before 0.

Section Places.
Variable unescape : bytes -> option bytes.
(** Number of the source. *)
Variable id : nat.

(** The mark on the [n] bytes that follow [before]. *)
Definition mark (before : bytes) (extra n : nat) : site :=
  Site id (1 + newlines before + extra) (length before) (column before) n.

(** The next token: kind, value, whitespace in front of it and mark.  The line
    of a string is the one it begins on; that of other tokens is taken at
    their end, after newlines escaped in them have been counted twice. *)
Inductive Next : cursor -> tkind -> bytes -> bytes -> site -> cursor -> Prop :=
| next : forall before extra bl w txt k v rest,
    Blank bl w -> TokText txt k v rest ->
    Next (Cursor before extra (bl ++ txt ++ rest)) k v w
      (mark (before ++ bl) (extra + match k with TString => 0 | _ => 2 * newlines txt end) (length txt))
      (Cursor (before ++ bl ++ txt) (extra + newlines txt) rest).

(** A tree read from one place to another. *)
Inductive Tree : cursor -> node -> cursor -> Prop :=
| t_symbol : forall c v w st c', Next c TSymbol v w st c' ->
    Tree c (Sym (Atom (unbackslash v) st w)) c'
| t_number : forall c v w st c', Next c TNumber v w st c' ->
    Tree c (Num (Atom (unbackslash v) st w)) c'
| t_string : forall c v u w st c', Next c TString v w st c' -> unescape v = Some u ->
    Tree c (Str (Atom u st w)) c'
| t_attribute : forall c k w st c1 n c2, Next c TKeyword k w st c1 -> Tree c1 n c2 ->
    Tree c (Attr k n st w) c2
| t_list : forall c p w st c1 ns c2 q ew es c3,
    Next c TLParen p w st c1 -> Forest c1 ns c2 -> Next c2 TRParen q ew es c3 ->
    Tree c (Lst ns st ew es w) c3
with Forest : cursor -> list node -> cursor -> Prop :=
| f_nil : forall c, Forest c [] c
| f_cons : forall c n c1 ns c2, Tree c n c1 -> Forest c1 ns c2 -> Forest c (n :: ns) c2.

Definition closing (c : cursor) : Prop := exists v w st c', Next c TRParen v w st c'.

(** Where a tree is due there is a fault, or there is one in the tree. *)
Inductive Fault : cursor -> ekind -> site -> Prop :=
| fault_closing : forall c v w st c', Next c TRParen v w st c' -> Fault c EUnexpectedRParen st
| fault_string : forall before extra bl w r, Blank bl w ->
    (forall r', DQ :: r <> quote3 ++ r') ->
    (forall t rest, StrBody t -> r <> t ++ DQ :: rest) ->
    Fault (Cursor before extra (bl ++ DQ :: r)) EUnclosedString (mark (before ++ bl) extra 1)
| fault_triple : forall before extra bl w r, Blank bl w ->
    (forall t rest, TripleBody t -> r <> t ++ quote3 ++ rest) ->
    Fault (Cursor before extra (bl ++ quote3 ++ r)) EUnclosedTriple (mark (before ++ bl) extra 3)
| fault_escape : forall c v w st c', Next c TString v w st c' -> unescape v = None ->
    Fault c EBadEscape st
| fault_no_value : forall c k w st c1, Next c TKeyword k w st c1 ->
    Trailing (ahead c1) \/ closing c1 -> Fault c EKeywordNoValue st
| fault_value : forall c k w st c1 e st', Next c TKeyword k w st c1 -> ~ closing c1 ->
    Fault c1 e st' -> Fault c e st'
| fault_open : forall c p w st c1 ns c2, Next c TLParen p w st c1 -> Forest c1 ns c2 ->
    Trailing (ahead c2) -> Fault c EExpectedRParen st
| fault_inside : forall c p w st c1 ns c2 e st', Next c TLParen p w st c1 -> Forest c1 ns c2 ->
    ~ closing c2 -> Fault c2 e st' -> Fault c e st'.

(** What there is to say about a source. *)
Inductive Syntax (src : bytes) : res tree -> Prop :=
| syntax_tree : forall ns c, Forest (beginning src) ns c -> Trailing (ahead c) -> Syntax src (Ok ns)
| syntax_fault : forall ns c e st, Forest (beginning src) ns c -> Fault c e st ->
    Syntax src (Err (EErr e st))
| syntax_cut : Dangling unescape src -> Syntax src Hang.
End Places.
