(** * Theorems about the positions in trees (C69) *)

From Coq Require Import String List Ascii Bool Arith.
From Verif Require Import Text Utf8 Res Lexer Ast Parser Spec_grammar Spec_print Spec_place
  Proofs_text Proofs_print Proofs_unescape Proofs_place.
Import ListNotations.

(** ** C69: trees, syntax errors and hangs, with every position *)

(** Reading a source gives what Spec_place.v says of it and nothing else: the
    tree in which every part has the line, offset, column, length and
    whitespace of the token it comes from; the first fault, with its mark; or
    nothing, if the source breaks off after a lone backslash. *)
Theorem c69_syntax : forall unescape id src r, utf8 src ->
  parse unescape id src = r <-> Syntax unescape id src r.
Proof. exact syntax_iff. Qed.
Print Assumptions c69_syntax.

(** A list has the mark of its opening parenthesis and, apart, the one of its
    closing parenthesis; the string before them has a newline, so that they
    are said to be a line too far down. *)
Example c69_example : Syntax ref_unescape 7 (b """a" ++ [LF] ++ b "b"" (p :k " ++ [LF] ++ b " v )")
  (Ok [Str (Atom (b "a" ++ [LF] ++ b "b") (Site 7 1 0 0 5) []);
       Lst [Sym (Atom (b "p") (Site 7 3 7 4 1) []);
            Attr (b "k") (Sym (Atom (b "v") (Site 7 4 14 1 1) (b " " ++ [LF] ++ b " "))) (Site 7 3 9 6 2) (b " ")]
           (Site 7 3 6 3 1) (b " ") (Site 7 4 16 3 1) (b " ")]).
Proof. apply c69_syntax; [apply is_utf8; reflexivity|]. vm_compute. reflexivity. Qed.

(** The parenthesis that is not closed is the outer one. *)
Example c69_example_open : Syntax ref_unescape 7 (b "x" ++ [LF] ++ b " (p (q) :k (r)")
  (Err (EErr EExpectedRParen (Site 7 2 3 1 1))).
Proof. apply c69_syntax; [apply is_utf8; reflexivity|]. vm_compute. reflexivity. Qed.

(** The same without running the parser. *)
Example c69_example_fault : Syntax ref_unescape 7 (b "x :k )") (Err (EErr EKeywordNoValue (Site 7 1 2 2 2))).
Proof.
  eapply (syntax_fault ref_unescape 7 _ _ (Cursor (b "x") 0 (b " :k )"))).
  - eapply f_cons; [|apply f_nil]. apply t_symbol.
    apply (next 7 [] 0 [] [] (b "x") TSymbol (b "x") (b " :k )")).
    + apply blank_ws. constructor.
    + apply tt_sym.
      * repeat split; try discriminate.
        -- intros [[|[|[|]]]|[|[|]]]; discriminate.
        -- intros [[_ D]|[D|D]]; [|discriminate|discriminate]. revert D. apply Nat.nle_gt. cbn. repeat constructor.
      * apply id_plain; [|constructor]. split; [intros [[|[|[|]]]|[|[|]]]; discriminate|discriminate].
      * left. do 3 right. reflexivity.
  - eapply (fault_no_value _ 7 _ _ _ _ (Cursor (b "x :k") 0 (b " )"))).
    + apply (next 7 (b "x") 0 (b " ") (b " ") (b ":k") TKeyword (b "k") (b " )")).
      * apply blank_ws. constructor; [do 3 right; reflexivity|constructor].
      * apply (tt_kw (b "k")).
        -- apply id_plain; [|constructor]. split; [intros [[|[|[|]]]|[|[|]]]; discriminate|discriminate].
        -- left. do 3 right. reflexivity.
    + right. exists (b ")"), (b " "), (Site 7 1 5 5 1), (Cursor (b "x :k )") 0 []).
      apply (next 7 (b "x :k") 0 (b " ") (b " ") (b ")") TRParen (b ")") []).
      * apply blank_ws. constructor; [do 3 right; reflexivity|constructor].
      * apply tt_rparen.
Qed.
