(** * UTF-8 validity (the invariant of Rust's [str])

    [utf8 s] holds when [s] is a sequence of well-formed encodings of Unicode
    scalar values (table 3-7 of the Unicode standard). *)

From Coq Require Import List Ascii Bool Arith.
From Verif Require Import Text.
Import ListNotations.

(** A continuation byte 10xxxxxx.  [str::is_char_boundary] (std) is false
    exactly in front of such bytes. *)
Definition is_cont (c : ascii) : bool :=
  match c with Ascii _ _ _ _ _ _ false true => true | _ => false end.

Definition between (lo hi : nat) (c : ascii) : bool :=
  (lo <=? nat_of_ascii c) && (nat_of_ascii c <=? hi).

(** One encoded character. *)
Definition utf8_char (s : bytes) : bool :=
  match s with
  | [c] => between 0 127 c
  | [c; d] => between 194 223 c && is_cont d
  | [c; d; e] =>
      (between 224 224 c && between 160 191 d && is_cont e)
      || (between 225 236 c && is_cont d && is_cont e)
      || (between 237 237 c && between 128 159 d && is_cont e)
      || (between 238 239 c && is_cont d && is_cont e)
  | [c; d; e; f] =>
      (between 240 240 c && between 144 191 d && is_cont e && is_cont f)
      || (between 241 243 c && is_cont d && is_cont e && is_cont f)
      || (between 244 244 c && between 128 143 d && is_cont e && is_cont f)
  | _ => false
  end.

Inductive utf8 : bytes -> Prop :=
| utf8_nil : utf8 []
| utf8_app : forall c s, utf8_char c = true -> utf8 s -> utf8 (c ++ s).
