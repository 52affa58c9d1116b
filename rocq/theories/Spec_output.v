(** * Specifications used for the document wrappers, the CSS formatter and
      formatter failures *)

From Coq Require Import String List Ascii Bool Arith.
From Verif Require Import Text Res Ast Spec_markup.
Import ListNotations.

(** ** Parts of a tree *)

(** [Inside m n]: [m] is [n] or a part of it. *)
Inductive Inside (m : node) : node -> Prop :=
| in_self : Inside m m
| in_list : forall ns s ew es w x, In x ns -> Inside m x -> Inside m (Lst ns s ew es w)
| in_attr : forall k v s w, Inside m v -> Inside m (Attr k v s w).

(** A list whose first element is the symbol [tag]. *)
Definition headed_by (tag : bytes) (m : node) : Prop :=
  exists a rest s ew es w, m = Lst (Sym a :: rest) s ew es w /\ a_val a = tag.
Definition headed_by_any_case (tag : bytes) (m : node) : Prop :=
  exists a rest s ew es w, m = Lst (Sym a :: rest) s ew es w /\ to_lower (a_val a) = tag.

(** [ListWithin tag d n]: within [d] levels of [n] there is a list whose
    first element is an atom spelling [tag] in any letter case. *)
Inductive ListWithin (tag : bytes) : nat -> node -> Prop :=
| lw_here : forall hd a rest s ew es w d,
    atomic hd = Some a -> to_lower (a_val a) = tag ->
    ListWithin tag (S d) (Lst (hd :: rest) s ew es w)
| lw_list : forall ns s ew es w x d,
    In x ns -> ListWithin tag d x -> ListWithin tag (S d) (Lst ns s ew es w)
| lw_attr : forall k v s w d,
    ListWithin tag d v -> ListWithin tag (S d) (Attr k v s w).

(** ** Trees the XML formatter accepts *)

Definition atom_value (n : node) : bool :=
  match n with Sym _ | Num _ | Str _ | Raw _ => true | _ => false end.
Definition decl_able (n : node) : bool :=
  match n with Sym _ | Num _ => true | Attr _ v _ _ => atom_value v | _ => false end.

(** Atoms other than raw text; lists headed by a non-empty symbol, followed
    by attributes with atomic values and then acceptable nodes; declarations
    of symbols, numbers and attributes. *)
Fixpoint xml_able (n : node) : bool :=
  match n with
  | Sym _ | Num _ | Str _ => true
  | Lst (Sym a :: rest) _ _ _ _ =>
      match a_val a with
      | [] => false
      | _ =>
          if starts_decl (a_val a) then forallb decl_able rest
          else (fix go (front : bool) (l : list node) : bool :=
                  match l with
                  | [] => true
                  | m :: l' =>
                      match m with
                      | Attr _ v _ _ => front && atom_value v && go true l'
                      | _ => xml_able m && go false l'
                      end
                  end) true rest
      end
  | _ => false
  end.

(** ** CSS *)

(** Nesting depth of braces after reading a text from depth [d]; [None] if a
    closing brace has no partner. *)
Fixpoint braces (d : nat) (s : bytes) : option nat :=
  match s with
  | [] => Some d
  | c :: s' =>
      if Ascii.eqb c "{" then braces (S d) s'
      else if Ascii.eqb c "}" then match d with 0 => None | S d' => braces d' s' end
      else braces d s'
  end.
Definition balanced (s : bytes) : Prop := braces 0 s = Some 0.
Definition brace_free (s : bytes) : Prop := ~ In "{"%char s /\ ~ In "}"%char s.

(** At-rules that contain rules, and those on one line. *)
Definition nesting_rule (s : bytes) : bool :=
  existsb (beq s) (map b [ "@counter-style"; "@document"; "@font-feature-values";
                           "@keyframes"; "@media"; "@supports" ]%string).
Definition line_rule (s : bytes) : bool :=
  existsb (beq s) (map b [ "@charset"; "@import"; "@namespace" ]%string).

(** Every nesting at-rule contains at least one rule. *)
Fixpoint rules_nested (n : node) : bool :=
  match n with
  | Lst (hd :: args) _ _ _ _ =>
      match atomic hd with
      | Some a => if nesting_rule (a_val a)
                  then existsb is_list args && forallb rules_nested args else true
      | None => true
      end
  | _ => true
  end.

(** A rule list that is empty or does not start with an atom, possibly inside
    a nesting at-rule. *)
Inductive BadRule : node -> Prop :=
| bad_empty : forall s ew es w, BadRule (Lst [] s ew es w)
| bad_head : forall hd args s ew es w, atomic hd = None -> BadRule (Lst (hd :: args) s ew es w)
| bad_nested : forall hd a args s ew es w m,
    atomic hd = Some a -> nesting_rule (a_val a) = true -> In m args -> BadRule m ->
    BadRule (Lst (hd :: args) s ew es w).

(** ** Attributes read literally *)

(** Value and remainder after an opening quote: up to the next quote. *)
Fixpoint up_to_quote (s : bytes) : option (bytes * bytes) :=
  match s with
  | [] => None
  | c :: s' => if Ascii.eqb c DQ then Some ([], s')
               else option_map (fun '(v, r) => (c :: v, r)) (up_to_quote s')
  end.

(** ** Source text of lists *)

(** All lists in a node: elements, whitespace before and position of the
    closing parenthesis. *)
Fixpoint lists_in (n : node) : list (list node * bytes * site) :=
  match n with
  | Lst ns _ ew es _ => (ns, ew, es) :: flat_map lists_in ns
  | Attr _ v _ _ => lists_in v
  | _ => []
  end.

Definition drop_space (w : bytes) : bytes :=
  match w with " "%char :: w' => w' | _ => w end.
