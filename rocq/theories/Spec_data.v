(** * Specification: trees of data imported by %yaml, %json and %toml *)

From Coq Require Import String List Ascii Bool Arith NArith ZArith.
From Verif Require Import Text Res Ast Env Scope State Numbers Args Spec_args Spec_bind Spec_expand Spec_builtin.
Import ListNotations.

(** A piece of data: a text, number or word; a table of named values; or an
    array. *)
Inductive leaf := LText | LNumber | LWord.
Inductive data :=
| Leaf (k : leaf) (v : bytes)
| Table (l : list (bytes * data))
| Array (l : list data).

(** How it is written as a node; [st] is the site of the macro, [w] the
    whitespace in front. *)
Definition spaces {A} (f : bytes -> A -> node) (l : list A) : list node :=
  match l with
  | [] => []
  | x :: l' => f [] x :: map (f (b " ")) l'
  end.
Section Node.
Variable st : site.
Fixpoint data_node (w : bytes) (d : data) : node :=
  match d with
  | Leaf LText v => Str (Atom v st w)
  | Leaf LNumber v => Num (Atom v st w)
  | Leaf LWord v => Sym (Atom v st w)
  | Table l => Lst (spaces (fun w' '(k, x) => Attr k (data_node (b " ") x) st w') l) st [] st w
  | Array l => Lst (spaces (fun w' x => data_node w' x) l) st [] st w
  end.
End Node.

(** All named values in it, with their paths: first what is inside a value,
    then the value itself.  Elements of an array are named by their index. *)
Definition inside (k : bytes) (x : data) (ps : list (list bytes * data)) : list (list bytes * data) :=
  map (fun '(p, y) => (k :: p, y)) ps ++ [([k], x)].
Fixpoint parts (d : data) : list (list bytes * data) :=
  match d with
  | Leaf _ _ => []
  | Table l => flat_map (fun '(k, x) => inside k x (parts x)) l
  | Array l =>
      (fix from (i : nat) (l : list data) : list (list bytes * data) :=
         match l with
         | [] => []
         | x :: l' => inside (show_nat i) x (parts x) ++ from (S i) l'
         end) 0 l
  end.

(** The value at a path, said once more and without an order. *)
Inductive value_at : data -> list bytes -> data -> Prop :=
| at_here d : value_at d [] d
| at_key l k x p y : In (k, x) l -> value_at x p y -> value_at (Table l) (k :: p) y
| at_index l i x p y : nth_error l i = Some x -> value_at x p y -> value_at (Array l) (show_nat i :: p) y.

(** No table in it has a key twice; no key contains the byte [c]. *)
Fixpoint distinct_keys (d : data) : Prop :=
  match d with
  | Leaf _ _ => True
  | Table l => NoDup (map fst l) /\ fold_right and True (map (fun '(_, x) => distinct_keys x) l)
  | Array l => fold_right and True (map distinct_keys l)
  end.
Fixpoint keys_without (c : ascii) (d : data) : Prop :=
  match d with
  | Leaf _ _ => True
  | Table l => fold_right and True (map (fun '(k, x) => ~ In c k /\ keys_without c x) l)
  | Array l => fold_right and True (map (keys_without c) l)
  end.

(** No key looks like an index, and arrays are no longer than the machine can
    count. *)
Fixpoint no_index_keys (d : data) : Prop :=
  match d with
  | Leaf _ _ => True
  | Table l => fold_right and True (map (fun '(k, x) => parse_usize k = None /\ no_index_keys x) l)
  | Array l => (N.of_nat (length l) < 2 ^ 64)%N /\ fold_right and True (map no_index_keys l)
  end.

(** The definitions it gives: each value under its path, the parts of which
    are separated by [sep].  (The whitespace in front of the value of a
    variable does not matter: it is replaced at each use.) *)
Definition defined_as (sep : bytes) (st : site) (x : list bytes * data) (y : bytes * list node) : Prop :=
  fst y = join sep (fst x) /\ exists w, snd y = [data_node st w (snd x)].
Definition imports (sep : bytes) (st : site) (d : data) (defs defs' : scope) : Prop :=
  exists l, Forall2 (defined_as sep st) (parts d) l /\ defs' = assign l defs.

(** The events of a YAML document without aliases in which all keys are
    scalars. *)
Fixpoint events (d : data) : list yevent :=
  match d with
  | Leaf _ v => [YScalar v]
  | Table l => YMapStart :: flat_map (fun '(k, x) => YScalar k :: events x) l ++ [YMapEnd]
  | Array l => YSeqStart :: flat_map events l ++ [YSeqEnd]
  end.
Definition is_text (k : leaf) : bool := match k with LText => true | _ => false end.
Fixpoint texts_only (d : data) : bool :=
  match d with
  | Leaf k _ => is_text k
  | Table l => forallb (fun '(_, x) => texts_only x) l
  | Array l => forallb texts_only l
  end.
(** Leaving out stream and document boundaries. *)
Definition content (es : list yevent) : list yevent :=
  filter (fun e => match e with YOther => false | _ => true end) es.

(** A TOML value as data. *)
Fixpoint toml_data (v : toml) : data :=
  match v with
  | TomlString s => Leaf LText s
  | TomlInt z => Leaf LNumber (show_Z z)
  | TomlFloat s => Leaf LNumber s
  | TomlDate s => Leaf LWord s
  | TomlBool x => Leaf LWord (if x then b "true" else b "false")
  | TomlArray l => Array (map toml_data l)
  | TomlTable l => Table (map (fun '(k, x) => (k, toml_data x)) l)
  end.

(** What a text means, according to the parser libraries. *)
Definition yaml_reads (E : env) (text : bytes) (d : data) : Prop :=
  exists es, e_yaml E text = (es, true) /\ content es = events d /\ texts_only d = true.
(** A syntax error after the first part of a document. *)
Definition yaml_breaks (E : env) (text : bytes) : Prop :=
  exists es rest d, e_yaml E text = (es, false) /\ content es ++ rest = events d /\ texts_only d = true.
Definition toml_reads (E : env) (text : bytes) (d : data) : Prop :=
  exists t, e_toml E text = Some t /\ d = toml_data (TomlTable t).

(** The front matter of a Markdown document: data, or nothing of use: there is
    none, or it is not valid. *)
Definition front_data (E : env) (text : bytes) (d : data) : Prop :=
  (exists y, e_front E text = Some (FYaml y) /\ yaml_reads E y d) \/
  (exists y, e_front E text = Some (FToml y) /\ toml_reads E y d).
Definition front_absent (E : env) (text : bytes) : Prop :=
  e_front E text = None \/ e_front E text = Some FNone.
Definition front_broken (E : env) (text : bytes) : Prop :=
  (exists y, e_front E text = Some (FYaml y) /\ yaml_breaks E y) \/
  (exists y, e_front E text = Some (FToml y) /\ e_toml E y = None).

(** ** The macros *)

(** The effects on the world of reading a document: none but a possible read
    through a dangling reference. *)
Definition quiet (s s' : state) : Prop :=
  x_vec s' = x_vec s /\
  g_log (x_world s') = g_log (x_world s) /\ g_seed (x_world s') = g_seed (x_world s) /\
  g_ordered (x_world s') = g_ordered (x_world s) /\
  g_sources (x_world s') = g_sources (x_world s) /\ g_freed (x_world s') = g_freed (x_world s).

(** The arguments of an import. *)
Definition imported (vs : list node) (text : bytes) (sep : bytes) : Prop :=
  exists p a, positionals vs = [p] /\ (p = Str a \/ p = Raw a) /\
    options vs (fun k v => k = b "separator" /\ literal v) /\
    text = a_val a /\ sep = chosen (b "separator") (b "/") vs.

(** The arguments of %markdown: the text with its site, the separator, and
    what is asked for. *)
Definition marked (vs : list node) (a : atom) (sep only : bytes) : Prop :=
  exists p, positionals vs = [p] /\ (p = Str a \/ p = Raw a) /\
    options vs (fun k v => (k = b "separator" /\ literal v) \/
      (k = b "only" /\ text_among [b "frontmatter"; b "content"] v)) /\
    sep = chosen (b "separator") (b "/") vs /\ only = chosen (b "only") (b "both") vs.
