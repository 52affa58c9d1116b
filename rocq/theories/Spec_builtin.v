(** * Vocabulary for statements about builtin macros *)

From Coq Require Import String List Ascii Bool Arith NArith.
From Verif Require Import Text Res Ast Args Env Scope State Expander Numbers Spec_args Spec_expand.
Import ListNotations.

(** The state after an invocation [n], started in [s], that did nothing but
    evaluate its arguments, ending in [s1]: only the count of reads through a
    dangling reference to the invocation may be higher. *)
Definition noted (n : node) (s s1 : state) : state := touch (ref n s) s1.

(** [s'] is [s] with [name] defined as [m]. *)
Definition defines (s : state) (name : bytes) (m : macro) (s' : state) : Prop :=
  get name (x_defs s') = Some m /\
  (forall k, k <> name -> get k (x_defs s') = get k (x_defs s)) /\
  x_vec s' = x_vec s /\ x_world s' = x_world s.

(** Nodes with the whitespace of the first one replaced. *)
Definition respaced (w : bytes) (ns : list node) : list node :=
  match ns with [] => [] | n :: ns' => set_ws w n :: ns' end.

(** A new node in the place of the invocation [n]. *)
Definition in_place (n : node) (text : bytes) : atom := Atom text (node_site n) (leading_ws n).

(** All nodes are atoms, with these texts. *)
Fixpoint texts (ns : list node) : option (list bytes) :=
  match ns with
  | [] => Some []
  | n :: ns' =>
      match atomic n, texts ns' with
      | Some a, Some l => Some (a_val a :: l)
      | _, _ => None
      end
  end.

(** Texts separated by [sep]. *)
Definition separated (sep : bytes) (l : list bytes) : bytes :=
  match l with
  | [] => []
  | x :: l' => x ++ flat_map (fun y => sep ++ y) l'
  end.

(** All keyword arguments among [vs] are allowed by [ok]. *)
Definition options (vs : list node) (ok : bytes -> node -> Prop) : Prop :=
  forall k v st w, In (Attr k v st w) vs -> ok k v.

(** Value of the option [k], or the default. *)
Definition chosen (k : bytes) (default : bytes) (vs : list node) : bytes :=
  match keyword_value k vs with
  | Some v => match atomic v with Some a => a_val a | None => default end
  | None => default
  end.

Definition literal (n : node) : Prop := atomic n <> None.

Definition text_among (l : list bytes) (v : node) : Prop :=
  exists a, atomic v = Some a /\ In (a_val a) l.

(** [ns'] is [ns] in reverse order, but with the same whitespace in each
    place. *)
Definition reversal (ns ns' : list node) : Prop :=
  map (set_ws []) ns' = rev (map (set_ws []) ns) /\
  map leading_ws ns' = map leading_ws ns.

(** Following a path: one step selects the element with the index, if the
    step is a number less than the number of elements, and otherwise the
    value of the first attribute with that keyword. *)
Definition index_of (item : bytes) (view : list node) (i : nat) : Prop :=
  exists k, parse_usize item = Some k /\ N.to_nat k = i /\ i < length view.
Inductive first_value (item : bytes) : list node -> node -> Prop :=
| fv_here v st w l : first_value item (Attr item v st w :: l) v
| fv_next n l v : (forall v' st w, n <> Attr item v' st w) ->
    first_value item l v -> first_value item (n :: l) v.
Inductive step (item : bytes) : node -> node -> Prop :=
| step_index view st ew es w i m :
    index_of item view i -> nth_error view i = Some m -> step item (Lst view st ew es w) m
| step_key view st ew es w m :
    (forall i, ~ index_of item view i) -> first_value item view m ->
    step item (Lst view st ew es w) m.
Inductive reaches : list bytes -> node -> node -> Prop :=
| reaches_here n : reaches [] n n
| reaches_step item path n m k : step item n m -> reaches path m k -> reaches (item :: path) n k.

(** The macros that check their evaluated arguments, with their rules. *)
Definition eager_rules : list (bytes * rules) :=
  [(b "get", rules_get); (b "markdown", rules_markdown); (b "yaml", rules_yaml);
   (b "json", rules_yaml); (b "toml", rules_yaml); (b "date", rules_date);
   (b "timestamp", rules_timestamp); (b "glob", rules_glob); (b "number", rules_literals);
   (b "symbol", rules_literals); (b "concat", rules_literals); (b "reverse", rules_reverse);
   (b "sort", rules_sort); (b "join", rules_join); (b "map", rules_map);
   (b "filter", rules_map); (b "apply", rules_map)].
