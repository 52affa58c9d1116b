(** * Numbers in text: parsing and printing of integers, comparison of keys *)

From Coq Require Import String List Ascii Bool Arith NArith ZArith DecimalString.
From Verif Require Import Text.
Import ListNotations.

(** [format!("{}", n)] for unsigned and signed integers. *)
Definition show_nat (n : nat) : bytes := b (NilZero.string_of_uint (Nat.to_uint n)).
Definition show_Z (z : Z) : bytes := b (NilZero.string_of_int (Z.to_int z)).

Definition digit (c : ascii) : option N :=
  let n := N_of_ascii c in
  if (48 <=? n)%N && (n <=? 57)%N then Some (n - 48)%N else None.

Fixpoint digits_from (acc : N) (s : bytes) : option N :=
  match s with
  | [] => Some acc
  | c :: s' =>
      match digit c with
      | Some d => digits_from (10 * acc + d)%N s'
      | None => None
      end
  end.
Definition digits (s : bytes) : option N :=
  match s with [] => None | _ => digits_from 0 s end.

(** [str::parse::<usize>] (64 bit): an optional plus sign and digits. *)
Definition parse_usize (s : bytes) : option N :=
  let unsigned := match s with c :: s' => if ch c "+" then s' else s | [] => s end in
  match digits unsigned with
  | Some n => if (n <? 2 ^ 64)%N then Some n else None
  | None => None
  end.

(** [str::parse::<i64>]. *)
Definition parse_i64 (s : bytes) : option Z :=
  let '(neg, unsigned) :=
    match s with
    | c :: s' => if ch c "+" then (false, s') else if ch c "-" then (true, s') else (false, s)
    | [] => (false, s)
    end in
  match digits unsigned with
  | Some n =>
      let z := if neg then (- Z.of_N n)%Z else Z.of_N n in
      if (- 2 ^ 63 <=? z)%Z && (z <? 2 ^ 63)%Z then Some z else None
  | None => None
  end.

(** [str::cmp] and [OsStr::cmp]: lexicographic order of bytes. *)
Fixpoint bytes_cmp (x y : bytes) : comparison :=
  match x, y with
  | [], [] => Eq
  | [], _ => Lt
  | _, [] => Gt
  | c :: x', d :: y' =>
      match N.compare (N_of_ascii c) (N_of_ascii d) with
      | Eq => bytes_cmp x' y'
      | o => o
      end
  end.

(** [slice::join(sep)] on strings. *)
Fixpoint join (sep : bytes) (l : list bytes) : bytes :=
  match l with
  | [] => []
  | [x] => x
  | x :: l' => x ++ sep ++ join sep l'
  end.

(** [str::split(sep)] for a non-empty separator: [cur] is the piece being
    read, and an occurrence of the separator is skipped by [skip]. *)
Fixpoint split_from (sep : bytes) (skip : nat) (cur s : bytes) : list bytes :=
  match s with
  | [] => [cur]
  | c :: s' =>
      match skip with
      | S k => split_from sep k cur s'
      | 0 => if starts_with sep s
             then cur :: split_from sep (length sep - 1) [] s'
             else split_from sep 0 (cur ++ [c]) s'
      end
  end.

(** Pieces of one UTF-8 character each. *)
Fixpoint chars_from (cur s : bytes) : list bytes :=
  match s with
  | [] => match cur with [] => [] | _ => [cur] end
  | c :: s' =>
      match c with
      | Ascii _ _ _ _ _ _ false true => chars_from (cur ++ [c]) s'
      | _ => match cur with
             | [] => chars_from [c] s'
             | _ => cur :: chars_from [c] s'
             end
      end
  end.

(** [str::split]; the empty separator matches at every character boundary. *)
Definition split (sep s : bytes) : list bytes :=
  match sep with
  | [] => [] :: chars_from [] s ++ [[]]
  | _ => split_from sep 0 [] s
  end.
