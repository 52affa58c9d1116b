(** * Trees read further on in a text *)

From Coq Require Import List.
From Verif Require Import Text Res Ast.
Import ListNotations.

(** [further d l]: the same, [d] bytes and [l] lines further on, and in the
    same column. *)
Definition site_further (d l : nat) (st : site) : site :=
  Site (s_src st) (s_line st + l) (s_off st + d) (s_col st) (s_span st).
Definition atom_further (d l : nat) (a : atom) : atom :=
  Atom (a_val a) (site_further d l (a_site a)) (a_ws a).
Fixpoint further (d l : nat) (n : node) : node :=
  match n with
  | Sym a => Sym (atom_further d l a)
  | Num a => Num (atom_further d l a)
  | Str a => Str (atom_further d l a)
  | Raw a => Raw (atom_further d l a)
  | Lst ns st ew es w => Lst (map (further d l) ns) (site_further d l st) ew (site_further d l es) w
  | Attr k v st w => Attr k (further d l v) (site_further d l st) w
  end.

(** Other whitespace before the first tree. *)
Definition spaced (w : bytes) (ns : list node) : list node :=
  match ns with [] => [] | n :: r => set_ws w n :: r end.
