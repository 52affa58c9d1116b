(** * Specification: a short program with a long output

    Used by C77. *)

From Coq Require Import String List Ascii Bool Arith.
From Verif Require Import Text.
Import ListNotations.

(** One variable, redefined [n] times as twice itself, and used. *)
Definition doubling (n : nat) : bytes :=
  b "(%define x a)" ++ concat (repeat (b "(%define x %x %x)") n) ++ b "%x".
