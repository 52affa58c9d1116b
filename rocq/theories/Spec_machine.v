(** * Specification: counter machines

    Used by C78.  Two counters are enough to compute everything that can be
    computed (Minsky 1967), so whether such a machine stops is undecidable. *)

From Coq Require Import String List Ascii Bool Arith.
From Verif Require Import Text Spec_tree.
Import ListNotations.

Inductive counter := First | Second.
Inductive instruction :=
(** Add one to the counter and go on at [next]. *)
| Add (c : counter) (next : nat)
(** If the counter is zero go on at [zero], otherwise subtract one from it
    and go on at [next]. *)
| Take (c : counter) (next zero : nat).
Definition machine : Type := list instruction.

(** The place of the next instruction, and the two counters. *)
Definition config : Type := nat * nat * nat.

Inductive step (M : machine) : config -> config -> Prop :=
| add_first : forall i m n j, nth_error M i = Some (Add First j) -> step M (i, m, n) (j, S m, n)
| add_second : forall i m n j, nth_error M i = Some (Add Second j) -> step M (i, m, n) (j, m, S n)
| take_first : forall i m n j z, nth_error M i = Some (Take First j z) -> step M (i, S m, n) (j, m, n)
| zero_first : forall i n j z, nth_error M i = Some (Take First j z) -> step M (i, 0, n) (z, 0, n)
| take_second : forall i m n j z, nth_error M i = Some (Take Second j z) -> step M (i, m, S n) (j, m, n)
| zero_second : forall i m j z, nth_error M i = Some (Take Second j z) -> step M (i, m, 0) (z, m, 0).

(** The machine stops where there is no instruction. *)
Inductive stops_with (M : machine) : config -> nat -> nat -> Prop :=
| stopped : forall i m n, nth_error M i = None -> stops_with M (i, m, n) m n
| continued : forall c c' m n, step M c c' -> stops_with M c' m n -> stops_with M c m n.

(** The same, after a given number of steps. *)
Inductive stops_after (M : machine) : nat -> config -> nat -> nat -> Prop :=
| after_none : forall i m n, nth_error M i = None -> stops_after M 0 (i, m, n) m n
| after_step : forall k c c' m n, step M c c' -> stops_after M k c' m n -> stops_after M (S k) c m n.

(** ** The program for a machine

    One macro for each instruction, named [q], [qq], [qqq] and so on, with the
    counters as its arguments; [h] for the end.  A number is an empty list
    inside that many lists. *)
Definition label (M : machine) (i : nat) : bytes :=
  if i <? length M then repeat "q"%char (S i) else b "h".
Definition goto (M : machine) (i : nat) (x y : bytes) : bytes :=
  b "(%" ++ label M i ++ b " " ++ x ++ b " " ++ y ++ b ")".
Definition action (M : machine) (i : instruction) : bytes :=
  match i with
  | Add First j => goto M j (b "(%list %a)") (b "%b")
  | Add Second j => goto M j (b "%a") (b "(%list %b)")
  | Take First j z =>
      b "(%match %a (() " ++ goto M z (b "%a") (b "%b") ++ b ") ((a) " ++ goto M j (b "%a") (b "%b") ++ b "))"
  | Take Second j z =>
      b "(%match %b (() " ++ goto M z (b "%a") (b "%b") ++ b ") ((b) " ++ goto M j (b "%a") (b "%b") ++ b "))"
  end.
Definition macro_text (name body : bytes) : bytes := b "(%define (" ++ name ++ b " a b) " ++ body ++ b ")".
Definition number_text (n : nat) : bytes := repeat "("%char (S n) ++ repeat ")"%char (S n).
Definition simulator (M : machine) (m n : nat) : bytes :=
  macro_text (b "h") (b "%a %b") ++
  concat (map (fun '(i, a) => macro_text (label M i) (action M a)) (combine (seq 0 (length M)) M)) ++
  goto M 0 (number_text m) (number_text n).

(** The list that stands for a number. *)
Fixpoint tower (n : nat) : sexp := match n with 0 => XList [] | S n => XList [tower n] end.
