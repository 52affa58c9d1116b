(** * Specification of argument schemas *)

From Coq Require Import String List Ascii Bool Arith.
From Verif Require Import Text Res Ast Args Schema Spec_args.
Import ListNotations.

(** ** Schemas and how they are written *)

Inductive item :=
| IArg (needed : bool) (where_ : pat) (t : argtype)
| IRest (t : argtype).
Definition schema := list item.

(** The names of types that may be restricted by predicates. *)
Inductive type_name : bytes -> (list pred -> argtype) -> Prop :=
| tn_literal : type_name (b "literal") TLiteral
| tn_string : type_name (b "string") TString
| tn_symbol : type_name (b "symbol") TSymbol
| tn_number : type_name (b "number") TNumber
| tn_symbolic : type_name (b "symbolic") TSymbolic
| tn_any : type_name (b "any") TAny.
Definition listed (g : group) : Prop := g_delim g = Bracket \/ g_delim g = Paren.

(** [number], [number[p, q]], [number fn(..) {..}], [list], [list[t, u]]. *)
Inductive spells : argtype -> list tt -> Prop :=
| sp_plain s t : type_name s t -> spells (t []) [TkIdent s]
| sp_among s t g : type_name s t -> listed g -> spells (t (g_preds g)) [TkIdent s; TkGroup g]
| sp_fn s t g body : type_name s t ->
    spells (t [Satisfying (g_test body)]) [TkIdent s; TkIdent (b "fn"); TkGroup g; TkGroup body]
| sp_list : spells (TList []) [TkIdent (b "list")]
| sp_list_of g : listed g -> spells (TList (g_types g)) [TkIdent (b "list"); TkGroup g].

Inductive item_written : item -> list tt -> Prop :=
| iw_mandatory g p t ts : g_pat g = Some p -> spells t ts ->
    item_written (IArg true p t) (TkIdent (b "mandatory") :: TkGroup g :: TkPunct ":" :: ts)
| iw_optional g p t ts : g_pat g = Some p -> spells t ts ->
    item_written (IArg false p t) (TkIdent (b "optional") :: TkGroup g :: TkPunct ":" :: ts)
| iw_rest t ts : spells t ts -> item_written (IRest t) (TkIdent (b "rest") :: TkPunct ":" :: ts).

(** Separated by commas, with or without one at the end. *)
Inductive written : schema -> list tt -> Prop :=
| wr_nil : written [] []
| wr_last i ts : item_written i ts -> written [i] ts
| wr_cons i ts l ts' : item_written i ts -> written l ts' -> written (i :: l) (ts ++ TkPunct "," :: ts').

(** Patterns whose positions can be listed: no range lacks an end. *)
Inductive bounded : pat -> Prop :=
| bd_int n : bounded (PatInt n)
| bd_str s : bounded (PatStr s)
| bd_lit : bounded PatLit
| bd_range lo hi closed : bounded (PatRange (Some lo) (Some hi) closed)
| bd_or cases : Forall bounded cases -> bounded (PatOr cases).
Definition bounded_item (i : item) : Prop := match i with IArg _ p _ => bounded p | IRest _ => True end.

(** What the procedural macro lets pass: schemas as above, with bounded
    patterns, or with a last item of which only the first word is there. *)
Inductive legible : schema -> list tt -> Prop :=
| lg_nil : legible [] []
| lg_word w : In w [b "mandatory"; b "optional"; b "rest"] -> legible [] [TkIdent w]
| lg_last i ts : item_written i ts -> bounded_item i -> legible [i] ts
| lg_cons i ts l ts' : item_written i ts -> bounded_item i -> legible l ts' ->
    legible (i :: l) (ts ++ TkPunct "," :: ts').

(** ** What they mean *)

(** The positions a pattern stands for. *)
Inductive denotes : pat -> argpos -> Prop :=
| dn_int n : denotes (PatInt n) (PInt n)
| dn_str s : denotes (PatStr s) (PStr s)
| dn_below lo hi i : lo <= i -> i < hi ->
    denotes (PatRange (Some (BInt lo)) (Some (BInt hi)) false) (PInt i)
| dn_upto lo hi i : lo <= i -> i <= hi ->
    denotes (PatRange (Some (BInt lo)) (Some (BInt hi)) true) (PInt i)
| dn_or cases c pos : In c cases -> denotes c pos -> denotes (PatOr cases) pos.

(** Patterns that stand for a finite set and that Rust accepts (Rust also
    wants all cases of one pattern to be of the same type). *)
Inductive proper : pat -> Prop :=
| pr_int n : proper (PatInt n)
| pr_str s : proper (PatStr s)
| pr_below lo hi : lo < hi -> proper (PatRange (Some (BInt lo)) (Some (BInt hi)) false)
| pr_upto lo hi : lo <= hi -> proper (PatRange (Some (BInt lo)) (Some (BInt hi)) true)
| pr_or cases : cases <> [] -> Forall proper cases -> proper (PatOr cases).

(** No position belongs to two items, and none is numbered 0. *)
Inductive consistent : schema -> Prop :=
| cs_nil : consistent []
| cs_rest t l : consistent l -> consistent (IRest t :: l)
| cs_arg m p t l : proper p -> ~ denotes p (PInt 0) ->
    (forall m' p' t' pos, In (IArg m' p' t') l -> denotes p pos -> ~ denotes p' pos) ->
    consistent l -> consistent (IArg m p t :: l).

(** The type of the remaining arguments: the last one given. *)
Inductive remaining : schema -> option argtype -> Prop :=
| rm_nil : remaining [] None
| rm_arg l m p t o : remaining l o -> remaining (l ++ [IArg m p t]) o
| rm_rest l t : remaining (l ++ [IRest t]) (Some t).

Definition claimed (sch : schema) (pos : argpos) : Prop :=
  exists m p t, In (IArg m p t) sch /\ denotes p pos.

(** The arguments are as the schema wants them: each has the type declared
    for its position, others are allowed only with [rest] and must have that
    type, and every mandatory position is filled. *)
Definition obeys (sch : schema) (ps : list node) : Prop :=
  (forall pos x m p t, In (pos, x) (slots 0 ps) -> In (IArg m p t) sch -> denotes p pos -> fits t (meant x)) /\
  (forall pos x, In (pos, x) (slots 0 ps) -> ~ claimed sch pos ->
     exists t, remaining sch (Some t) /\ fits t x) /\
  (forall p t pos, In (IArg true p t) sch -> denotes p pos -> given pos ps <> None).

(** The arguments no item claims, in order. *)
Inductive unclaimed (sch : schema) : list (argpos * node) -> list node -> Prop :=
| un_nil : unclaimed sch [] []
| un_take pos x l r : ~ claimed sch pos -> unclaimed sch l r -> unclaimed sch ((pos, x) :: l) (x :: r)
| un_skip pos x l r : claimed sch pos -> unclaimed sch l r -> unclaimed sch ((pos, x) :: l) r.

(** The structure holds the arguments given, in the Rust types that go with
    the declared types. *)
Definition unpacked (sch : schema) (ps : list node) (x : args) : Prop :=
  (forall m p t pos, In (IArg m p t) sch -> denotes p pos ->
     match given pos ps with
     | None => arg_at pos (x_args x) = None
     | Some n => exists v, arg_at pos (x_args x) = Some v /\ represents t n v
     end) /\
  (forall pos v, arg_at pos (x_args x) = Some v -> claimed sch pos) /\
  exists l, unclaimed sch (slots 0 ps) l /\
    ((exists t, remaining sch (Some t) /\ Forall2 (represents t) l (x_rest x)) \/
     (remaining sch None /\ l = [] /\ x_rest x = [])).

(** The names of a schema's named arguments, in any order. *)
Definition names_of (sch : schema) (names : list bytes) : Prop :=
  NoDup names /\ forall k, In k names <-> claimed sch (PStr k).

(** Two results of unpacking that no code can tell apart. *)
Definition same_args (r1 r2 : res args) : Prop :=
  match r1, r2 with
  | Ok x, Ok y => (forall pos, arg_at pos (x_args x) = arg_at pos (x_args y)) /\ x_rest x = x_rest y
  | Err e, Err e' => e = e'
  | _, _ => False
  end.

(** The schema written as [ts] has the effect of the table [rs]. *)
Definition compiles_to (ts : list tt) (rs : rules) : Prop :=
  exists sch c, written sch ts /\ consistent sch /\ compile ts = Ok c /\
    forall names call ps, names_of sch names ->
      same_args (generated c names call ps) (arguments rs call ps).
