(** * Specification: reading bytes that may not be text *)

From Coq Require Import String List Ascii Bool Arith.
From Verif Require Import Text Utf8 Res Ast.
Import ListNotations.

(** The beginning of a character, or all of it. *)
Definition begins_char (p : bytes) : Prop := exists q, utf8_char (p ++ q) = true.

(** [Legible s t]: [t] is [s] with a replacement character ([U+FFFD]) in
    place of each maximal piece that is no text.  Such a piece is the longest
    beginning of a character there, or one byte where no character begins
    (Unicode standard, section 3.9, U+FFFD Substitution of Maximal
    Subparts). *)
Inductive Legible : bytes -> bytes -> Prop :=
| lg_end : Legible [] []
| lg_char c s t : utf8_char c = true -> Legible s t -> Legible (c ++ s) (c ++ t)
| lg_piece p s t :
    (forall c r, p ++ s = c ++ r -> utf8_char c = false) ->
    begins_char p /\ p <> [] \/ length p = 1 ->
    (forall q r, p ++ s = q ++ r -> begins_char q -> length q <= length p) ->
    Legible s t ->
    Legible (p ++ s) (ascii_of_nat 239 :: ascii_of_nat 191 :: ascii_of_nat 189 :: t).

(** The names in a listing: quoted strings, the first without space before it. *)
Definition shown_names (st : site) (names : list bytes) : list node :=
  match names with
  | [] => []
  | t :: ts => Str (Atom t st []) :: map (fun t => Str (Atom t st (b " "))) ts
  end.
(** The ASCII characters of a text. *)
Definition ascii_part (s : bytes) : bytes := filter (fun c => nat_of_ascii c <? 128) s.
