(** * Text: byte strings

    Rust [&str]/[String] values are modelled by the list of their UTF-8
    bytes; all offsets used by the code are byte offsets into such lists.
    [ascii] is Coq's type of 8-bit characters, so a value of this type is an
    arbitrary byte, not only an ASCII one. *)

From Coq Require Import List Ascii String Bool Arith.
Import ListNotations.

Notation bytes := (list ascii).

(** Literals: [b "abc"] is the byte string abc. *)
Definition b (s : string) : bytes := list_ascii_of_string s.
Arguments b _%string_scope.

Notation ch := Ascii.eqb.

(** Characters that cannot be written comfortably as literals. *)
Definition LF : ascii := "010"%char.
Definition CR : ascii := "013"%char.
Definition TAB : ascii := "009"%char.
Definition DQ : ascii := """"%char.
Definition BS : ascii := "\"%char.

(** Equality of byte strings (Rust [str == str]). *)
Fixpoint beq (x y : bytes) : bool :=
  match x, y with
  | [], [] => true
  | c :: x', d :: y' => Ascii.eqb c d && beq x' y'
  | _, _ => false
  end.

(** [str::starts_with(&str)]. *)
Fixpoint starts_with (p s : bytes) : bool :=
  match p, s with
  | [], _ => true
  | c :: p', d :: s' => Ascii.eqb c d && starts_with p' s'
  | _ :: _, [] => false
  end.

(** [str::contains(char)] for an ASCII character. *)
Definition has (c : ascii) (s : bytes) : bool := existsb (Ascii.eqb c) s.

(** [u8::to_ascii_lowercase] on a byte. *)
Definition lower (c : ascii) : ascii :=
  let n := nat_of_ascii c in
  if (65 <=? n) && (n <=? 90) then ascii_of_nat (n + 32) else c.

(** [str::to_ascii_lowercase]. *)
Definition to_lower (s : bytes) : bytes := map lower s.

(** Sub-slice [s[i..j]]. *)
Definition slice (i j : nat) (s : bytes) : bytes := firstn (j - i) (skipn i s).

(** Number of line feeds in a text. *)
Definition newlines (s : bytes) : nat := count_occ ascii_dec s LF.
