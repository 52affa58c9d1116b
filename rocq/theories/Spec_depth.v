(** * Specification: how deeply a tree is nested

    Used by C79. *)

From Coq Require Import String List Ascii Bool Arith.
From Verif Require Import Text Ast.
Import ListNotations.

(** One more than what is inside. *)
Fixpoint depth (n : node) : nat :=
  match n with
  | Lst ns _ _ _ _ => S (fold_right (fun x d => Nat.max (depth x) d) 0 ns)
  | Attr _ v _ _ => S (depth v)
  | _ => 1
  end.
Definition depths (ns : list node) : nat := fold_right (fun x d => Nat.max (depth x) d) 0 ns.

(** [n] brackets, one inside the other. *)
Definition nested (n : nat) : bytes := repeat "("%char n ++ repeat ")"%char n.
