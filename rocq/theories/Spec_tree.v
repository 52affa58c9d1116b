(** * Specification helpers on syntax trees *)

From Coq Require Import List Ascii Bool Arith.
From Verif Require Import Text Res Ast Spec_grammar.
Import ListNotations.

(** Forget source positions. *)
Fixpoint strip (n : node) : stree :=
  match n with
  | Sym a => SSym (a_ws a) (a_val a)
  | Num a => SNum (a_ws a) (a_val a)
  | Str a => SStr (a_ws a) (a_val a)
  | Raw a => SRaw (a_ws a) (a_val a)
  | Lst ns _ ew _ w => SList w (map strip ns) ew
  | Attr k v _ w => SAttr w k (strip v)
  end.

(** Forget positions and whitespace: the pure structure. *)
Inductive sexp :=
| XSym (v : bytes) | XNum (v : bytes) | XStr (v : bytes) | XRaw (v : bytes)
| XList (items : list sexp) | XAttr (keyword : bytes) (value : sexp).

Fixpoint shape (n : node) : sexp :=
  match n with
  | Sym a => XSym (a_val a)
  | Num a => XNum (a_val a)
  | Str a => XStr (a_val a)
  | Raw a => XRaw (a_val a)
  | Lst ns _ _ _ _ => XList (map shape ns)
  | Attr k v _ _ => XAttr k (shape v)
  end.

Fixpoint sshape (n : stree) : sexp :=
  match n with
  | SSym _ v => XSym v
  | SNum _ v => XNum v
  | SStr _ v => XStr v
  | SRaw _ v => XRaw v
  | SList _ ns _ => XList (map sshape ns)
  | SAttr _ k v => XAttr k (sshape v)
  end.

(** All symbols and numbers of a tree. *)
Fixpoint names (n : node) : list bytes :=
  match n with
  | Sym a | Num a => [a_val a]
  | Str _ | Raw _ => []
  | Lst ns _ _ _ _ => flat_map names ns
  | Attr _ v _ _ => names v
  end.
Fixpoint snames (n : stree) : list bytes :=
  match n with
  | SSym _ v | SNum _ v => [v]
  | SStr _ _ | SRaw _ _ => []
  | SList _ ns _ => flat_map snames ns
  | SAttr _ _ v => snames v
  end.

(** All source positions recorded in a tree. *)
Fixpoint node_sites (n : node) : list site :=
  match n with
  | Sym a | Num a | Str a | Raw a => [a_site a]
  | Lst ns st _ es _ => st :: es :: flat_map node_sites ns
  | Attr _ v st _ => st :: node_sites v
  end.

(** All whitespace fields of a tree. *)
Fixpoint ws_fields (n : node) : list bytes :=
  match n with
  | Sym a | Num a | Str a | Raw a => [a_ws a]
  | Lst ns _ ew _ w => w :: ew :: flat_map ws_fields ns
  | Attr _ v _ w => w :: ws_fields v
  end.

(** All values (symbols, numbers, strings, keywords) of a tree. *)
Fixpoint values (n : node) : list bytes :=
  match n with
  | Sym a | Num a | Str a | Raw a => [a_val a]
  | Lst ns _ _ _ _ => flat_map values ns
  | Attr k v _ _ => k :: values v
  end.
