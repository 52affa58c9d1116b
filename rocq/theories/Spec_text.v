(** * Specification of the text functions of the standard library that the
    expander relies on: splitting, integers and paths *)

From Coq Require Import String List Ascii Bool Arith NArith ZArith.
From Verif Require Import Text Utf8 Paths.
Import ListNotations.

(** ** Splitting *)

Definition occurs (sep s : bytes) : Prop := exists x y, s = x ++ sep ++ y.

(** Cutting at the leftmost occurrence, again and again. *)
Inductive cut (sep : bytes) : bytes -> list bytes -> Prop :=
| cut_last s : ~ occurs sep s -> cut sep s [s]
| cut_first x s l :
    (forall x' s', x ++ sep ++ s = x' ++ sep ++ s' -> length x <= length x') ->
    cut sep s l -> cut sep (x ++ sep ++ s) (x :: l).

(** ** Integers *)

(** Decimal digits and the number they denote. *)
Inductive numeral : bytes -> N -> Prop :=
| numeral_one d : (d <= 9)%N -> numeral [ascii_of_N (48 + d)] d
| numeral_more s n d : numeral s n -> (d <= 9)%N ->
    numeral (s ++ [ascii_of_N (48 + d)]) (10 * n + d).

(** With an optional sign. *)
Definition unsigned_numeral (s : bytes) (n : N) : Prop :=
  exists t, numeral t n /\ (s = t \/ s = b "+" ++ t).
Definition signed_numeral (s : bytes) (z : Z) : Prop :=
  (exists n, unsigned_numeral s n /\ z = Z.of_N n) \/
  (exists t n, numeral t n /\ s = b "-" ++ t /\ z = (- Z.of_N n)%Z).

(** ** Paths *)

Definition no_slash (s : bytes) : Prop := ~ In "/"%char s.

(** What a name contributes to a path, at its beginning and after a slash. *)
Inductive begins : bytes -> list component -> Prop :=
| begins_empty : begins [] []
| begins_dot : begins (b ".") [CurDir]
| begins_dots : begins (b "..") [ParentDir]
| begins_name s : no_slash s -> ~ In s [[]; b "."; b ".."] -> begins s [Normal s].
Inductive continues : bytes -> list component -> Prop :=
| continues_empty : continues [] []
| continues_dot : continues (b ".") []
| continues_dots : continues (b "..") [ParentDir]
| continues_name s : no_slash s -> ~ In s [[]; b "."; b ".."] -> continues s [Normal s].

(** The components of a path. *)
Inductive consists : bytes -> list component -> Prop :=
| consists_relative s l : begins s l -> consists s l
| consists_absolute s l : continues s l -> consists (b "/" ++ s) (RootDir :: l)
| consists_more p s l l' : p <> [] -> consists p l -> continues s l' ->
    consists (p ++ b "/" ++ s) (l ++ l').

(** The order of components, and of paths: that of a dictionary. *)
Inductive component_lt : component -> component -> Prop :=
| root_cur : component_lt RootDir CurDir
| root_parent : component_lt RootDir ParentDir
| root_name s : component_lt RootDir (Normal s)
| cur_parent : component_lt CurDir ParentDir
| cur_name s : component_lt CurDir (Normal s)
| parent_name s : component_lt ParentDir (Normal s)
| name_shorter s c t : component_lt (Normal s) (Normal (s ++ c :: t))
| name_byte s c d t t' : (N_of_ascii c < N_of_ascii d)%N ->
    component_lt (Normal (s ++ c :: t)) (Normal (s ++ d :: t')).
Inductive earlier : list component -> list component -> Prop :=
| earlier_shorter l c l' : earlier l (l ++ c :: l')
| earlier_at l c d r r' : component_lt c d -> earlier (l ++ c :: r) (l ++ d :: r').

(** What a path contributes when it is appended to another one. *)
Definition after_slash (l : list component) : list component :=
  match l with CurDir :: l' => l' | _ => l end.
