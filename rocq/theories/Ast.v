(** * Model of the syntax tree of [crates/seam/src/parse/parser.rs] *)

From Coq Require Import List Ascii Bool Arith.
From Verif Require Import Text Res.
Import ListNotations.

(** [parser.rs:11-15] [struct Node]. *)
Record atom := Atom { a_val : bytes; a_site : site; a_ws : bytes }.

(** [parser.rs:44-61] [enum ParseNode].  Of the [end_token] of a list only
    its leading whitespace and its site are ever used. *)
Inductive node :=
| Sym (a : atom)
| Num (a : atom)
| Str (a : atom)
| Raw (a : atom)
| Lst (nodes : list node) (st : site) (end_ws : bytes) (end_site : site) (ws : bytes)
| Attr (keyword : bytes) (value : node) (st : site) (ws : bytes).

(** [parser.rs:382] [ParseTree]. *)
Notation tree := (list node).

(** [parser.rs:170-178] [atomic]. *)
Definition atomic (n : node) : option atom :=
  match n with
  | Sym a | Num a | Str a | Raw a => Some a
  | _ => None
  end.

(** [parser.rs:138-143] [symbolic]. *)
Definition symbolic (n : node) : option atom :=
  match n with Sym a | Num a => Some a | _ => None end.

(** [parser.rs:162-167] [symbol]. *)
Definition symbol (n : node) : option atom :=
  match n with Sym a => Some a | _ => None end.

(** [parser.rs:181-186] [list]. *)
Definition list_of (n : node) : option (list node) :=
  match n with Lst ns _ _ _ _ => Some ns | _ => None end.

(** [parser.rs:189-194] [attribute]. *)
Definition attribute (n : node) : option (bytes * node) :=
  match n with Attr k v _ _ => Some (k, v) | _ => None end.

Definition is_some {A} (o : option A) : bool :=
  match o with Some _ => true | None => false end.

(** [parser.rs:269-275]. *)
Definition is_atomic n := is_some (atomic n).
Definition is_list n := is_some (list_of n).
Definition is_attribute n := is_some (attribute n).

(** [parser.rs:130-135] [null]. *)
Definition null (n : node) : bool :=
  match n with Lst [] _ _ _ _ => true | _ => false end.

(** [parser.rs:209-230] [site], [owned_site]. *)
Definition node_site (n : node) : site :=
  match n with
  | Sym a | Num a | Str a | Raw a => a_site a
  | Lst _ s _ _ _ => s
  | Attr _ _ s _ => s
  end.

(** [parser.rs:234-243] [leading_whitespace]. *)
Definition leading_ws (n : node) : bytes :=
  match n with
  | Sym a | Num a | Str a | Raw a => a_ws a
  | Lst _ _ _ _ w => w
  | Attr _ _ _ w => w
  end.

(** [parser.rs:246-255] [set_leading_whitespace]. *)
Definition set_atom_ws (w : bytes) (a : atom) : atom := Atom (a_val a) (a_site a) w.
Definition set_ws (w : bytes) (n : node) : node :=
  match n with
  | Sym a => Sym (set_atom_ws w a)
  | Num a => Num (set_atom_ws w a)
  | Str a => Str (set_atom_ws w a)
  | Raw a => Raw (set_atom_ws w a)
  | Lst ns s ew es _ => Lst ns s ew es w
  | Attr k v s _ => Attr k v s w
  end.

(** [parser.rs:63-93] [PartialEq for ParseNode] ([parser.rs:17-21] for the
    atoms): positions and whitespace are ignored. *)
Fixpoint node_eq (x y : node) : bool :=
  match x, y with
  | Sym a, Sym c => beq (a_val a) (a_val c)
  | Num a, Num c => beq (a_val a) (a_val c)
  | Str a, Str c => beq (a_val a) (a_val c)
  | Raw a, Raw c => beq (a_val a) (a_val c)
  | Lst xs _ _ _ _, Lst ys _ _ _ _ =>
      (fix go (xs ys : list node) : bool :=
         match xs, ys with
         | [], [] => true
         | x :: xs', y :: ys' => node_eq x y && go xs' ys'
         | _, _ => false
         end) xs ys
  | Attr k v _ _, Attr k' v' _ _ => beq k k' && node_eq v v'
  | _, _ => false
  end.

(** What [Hash for ParseNode] ([parser.rs:96-126], [24-28]) feeds to the
    hasher.  [str::hash] writes the bytes and a terminator [0xff];
    [\[T\]::hash] writes the length and then the elements. *)
Inductive hash_word := HU8 (n : nat) | HLen (n : nat) | HStr (s : bytes).
Fixpoint node_hash (x : node) : list hash_word :=
  match x with
  | Sym a => [HU8 0; HStr (a_val a)]
  | Num a => [HU8 1; HStr (a_val a)]
  | Str a => [HU8 2; HStr (a_val a)]
  | Raw a => [HU8 3; HStr (a_val a)]
  | Lst xs _ _ _ _ =>
      HU8 4 :: HLen (length xs) ::
        (fix go (xs : list node) : list hash_word :=
           match xs with [] => [] | x :: xs' => node_hash x ++ go xs' end) xs
  | Attr k v _ _ => HU8 5 :: HStr k :: node_hash v
  end.

(** [parser.rs:552-564] [SearchType] and [is_a].  Only the search types the
    crate uses are needed: [document] in html.rs searches for [ListHead]. *)
Inductive search := SListHead | SListMember | SSymbol | SNumber | SString
                  | SAttribute | SAny.
Definition search_eqb (x y : search) : bool :=
  match x, y with
  | SListHead, SListHead | SListMember, SListMember | SSymbol, SSymbol
  | SNumber, SNumber | SString, SString | SAttribute, SAttribute | SAny, SAny => true
  | _, _ => false
  end.
Definition is_a (x k : search) : bool := search_eqb x SAny || search_eqb x k.

(** [parser.rs:566-639] [search_node] for nodes and trees.
    Simplification: Unicode [to_lowercase] is modelled by ASCII lowering; the
    code only searches (case-insensitively) for "!doctype", "html", "head"
    and "body", and the only non-ASCII character with an ASCII lowercase
    mapping is U+212A (k), which occurs in none of them. *)
Fixpoint search_node (kind : search) (value : bytes) (insensitive : bool)
  (level : nat) (n : node) {struct n} : option node :=
  let is_equal s := if insensitive then beq (to_lower s) (to_lower value)
                    else beq s value in
  match level with
  | 0 => None
  | S level' =>
    match n with
    | Lst nodes _ _ _ _ =>
        let rest :=
          match level' with
          | 0 => None
          | S _ =>
            (fix go (ns : list node) : option node :=
               match ns with
               | [] => None
               | m :: ns' =>
                   match search_node kind value insensitive level' m with
                   | Some x => Some x
                   | None => go ns'
                   end
               end) nodes
          end in
        if is_a kind SListHead then
          match nodes with
          | hd :: _ =>
              match atomic hd with
              | Some a => if is_equal (a_val a) then Some n else rest
              | None => rest
              end
          | [] => rest
          end
        else rest
    | Sym a => if is_a kind SSymbol && is_equal (a_val a) then Some n else None
    | Str a | Raw a => if is_a kind SString && is_equal (a_val a) then Some n else None
    | Num a => if is_a kind SNumber && is_equal (a_val a) then Some n else None
    | Attr k v _ _ =>
        if is_a kind SAttribute && is_equal k then Some v
        else search_node kind value insensitive level' v
    end
  end.

Fixpoint search_tree (kind : search) (value : bytes) (insensitive : bool)
  (level : nat) (ns : list node) : option node :=
  match level with
  | 0 => None
  | S _ =>
      match ns with
      | [] => None
      | n :: ns' =>
          match search_node kind value insensitive level n with
          | Some x => Some x
          | None => search_tree kind value insensitive level ns'
          end
      end
  end.
