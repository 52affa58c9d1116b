(** * What comes before and after in a sequence of nodes *)

From Coq Require Import List.
From Verif Require Import Text Res Ast Env Scope State Expander.
Import ListNotations.

(** The outcome [q] of the rest of a sequence, when what precedes it has been
    expanded to [xs]. *)
Definition after (xs : list node) (q : res (list node * state)) : res (list node * state) :=
  match q with
  | Ok (ys, s) => Ok (xs ++ ys, s)
  | q => q
  end.
