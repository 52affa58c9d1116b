(** * Model of YAML and TOML import ([expander.rs:1896-2235]) *)

From Coq Require Import String List Ascii Bool Arith ZArith.
From Verif Require Import Text Res Ast Env Scope Numbers.
Import ListNotations.

(** Both importers qualify a name by the names of the enclosing collections
    ([expander.rs:1924-1931], [2125-2132] [qualified]); [prefix] is given
    outermost first. *)
Definition qualified (sep : bytes) (prefix : list bytes) (name : bytes) : bytes :=
  match prefix with
  | [] => name
  | _ => join sep prefix ++ sep ++ name
  end.

(** ** YAML *)

Inductive mode := Map | Seq.

(** [expander.rs:1902-1921] [EventSink], without [context] and constants.
    The stacks [parent], [modes] have their top first; [prefix] is outermost
    first, as in the code. *)
Record sink := Sink {
  y_defining : option bytes; y_nodes : list node; y_parent : list (list node);
  y_prefix : list bytes; y_mode : option mode; y_modes : list mode
}.

Definition sink_new : sink := Sink None [] [] [] None [].

Definition unless_first (nodes : list node) : bytes :=
  match nodes with [] => [] | _ => b " " end.

Definition pop_prefix (prefix : list bytes) : option bytes * list bytes :=
  match rev prefix with
  | [] => (None, [])
  | name :: outer => (Some name, rev outer)
  end.

Section Yaml.
Variable sep : bytes.
Variable st : site.

Definition rlist (ns : list node) (ws : bytes) : node := Lst ns st [] st ws.

(** [expander.rs:2000-2012] and [2013-2025]: start of a mapping or sequence. *)
Definition y_start (m : mode) (k : sink) : sink :=
  Sink (match m with Map => None | Seq => Some (b "0") end)
       [] (y_nodes k :: y_parent k)
       (match y_defining k with Some d => y_prefix k ++ [d] | None => y_prefix k end)
       (Some m)
       (match y_mode k with Some m' => m' :: y_modes k | None => y_modes k end).

(** [expander.rs:2026-2074]: end of a mapping or sequence. *)
Definition y_end (k : sink) (defs : scope) : res (sink * scope) :=
  let '(mode, modes) :=
    match y_modes k with m :: ms => (Some m, ms) | [] => (None, []) end in
  let '(nodes, parent) :=
    match y_parent k with ns :: ps => (ns, ps) | [] => ([], []) end in
  let defining :=
    match mode with Some Seq => Some (show_nat (length nodes + 1)) | _ => None end in
  let '(name, prefix) := pop_prefix (y_prefix k) in
  let lst := rlist (y_nodes k) (unless_first nodes) in
  let defs :=
    match name with
    | Some n => put (qualified sep prefix n) (variable [lst]) defs
    | None => defs
    end in
  match mode, name with
  | Some Map, Some n =>
      Ok (Sink defining
            (nodes ++ [Attr n (set_ws (b " ") lst) st (leading_ws lst)])
            parent prefix mode modes, defs)
  | Some Map, None => Panic PUnwrap
  | _, _ => Ok (Sink defining (nodes ++ [lst]) parent prefix mode modes, defs)
  end.

(** [expander.rs:1935-2077] [on_event]. *)
Definition y_event (e : yevent) (k : sink) (defs : scope) : res (sink * scope) :=
  match e with
  | YScalar v =>
      let string := Str (Atom v st (b " ")) in
      let placed := set_ws (unless_first (y_nodes k)) string in
      match y_defining k with
      | Some name =>
          let defs := put (qualified sep (y_prefix k) name) (variable [string]) defs in
          match y_mode k with
          | Some Map =>
              Ok (Sink None
                    (y_nodes k ++ [Attr name string st (unless_first (y_nodes k))])
                    (y_parent k) (y_prefix k) (y_mode k) (y_modes k), defs)
          | Some Seq =>
              Ok (Sink (Some (show_nat (length (y_nodes k) + 1)))
                    (y_nodes k ++ [placed])
                    (y_parent k) (y_prefix k) (y_mode k) (y_modes k), defs)
          | None => Panic PExplicit
          end
      | None =>
          match y_mode k with
          | Some Map =>
              Ok (Sink (Some v) (y_nodes k) (y_parent k) (y_prefix k) (y_mode k) (y_modes k),
                  defs)
          | Some Seq => Panic PExplicit
          | None =>
              Ok (Sink None (y_nodes k ++ [placed])
                    (y_parent k) (y_prefix k) (y_mode k) (y_modes k), defs)
          end
      end
  | YMapStart => Ok (y_start Map k, defs)
  | YSeqStart => Ok (y_start Seq k, defs)
  | YMapEnd | YSeqEnd => y_end k defs
  | YOther => Ok (k, defs)
  end.

Fixpoint y_events (es : list yevent) (k : sink) (defs : scope) : res (sink * scope) :=
  match es with
  | [] => Ok (k, defs)
  | e :: es' => let* '(k, defs) := y_event e k defs in y_events es' k defs
  end.
End Yaml.

(** [expander.rs:1896-2100] [expand_yaml].  The definitions made before a
    syntax error stay, so they are returned in any case; the inner result is
    that of the function. *)
Definition expand_yaml (E : env) (text sep : bytes) (st : site) (defs : scope)
  : res (res (list node) * scope) :=
  let '(events, ok) := e_yaml E text in
  let* '(k, defs) := y_events sep st events sink_new defs in
  Ok (if ok then Ok (y_nodes k) else Err (EErr EYaml st), defs).

(** ** TOML *)

(** [expander.rs:2120-2122] [whitespace]. *)
Definition toml_ws (leading : bool) : bytes := if leading then [] else b " ".

(** [expander.rs:2143-2220] [traverse_value], [traverse_array],
    [traverse_table]; the integer counts the elements of an array. *)
Fixpoint traverse (sep : bytes) (st : site) (prefix : list bytes) (v : toml)
  (leading : bool) (defs : scope) {struct v} : node * scope :=
  let at_ s := Atom s st (toml_ws leading) in
  match v with
  | TomlString s => (Str (at_ s), defs)
  | TomlInt z => (Num (at_ (show_Z z)), defs)
  | TomlFloat s => (Num (at_ s), defs)
  | TomlDate s => (Sym (at_ s), defs)
  | TomlBool x => (Sym (at_ (if x then b "true" else b "false")), defs)
  | TomlArray l =>
      let '(ns, defs) :=
        (fix go (i : nat) (l : list toml) (first : bool) (defs : scope)
           : list node * scope :=
           match l with
           | [] => ([], defs)
           | v :: l' =>
               let name := show_nat i in
               let '(n, defs) := traverse sep st (prefix ++ [name]) v first defs in
               let defs := put (qualified sep prefix name) (variable [n]) defs in
               let '(ns, defs) := go (S i) l' false defs in
               (n :: ns, defs)
           end) 0 l true defs in
      (Lst ns st [] st (toml_ws leading), defs)
  | TomlTable l =>
      let '(ns, defs) :=
        (fix go (l : list (bytes * toml)) (first : bool) (defs : scope)
           : list node * scope :=
           match l with
           | [] => ([], defs)
           | (k, v) :: l' =>
               let '(n, defs) := traverse sep st (prefix ++ [k]) v false defs in
               let defs := put (qualified sep prefix k) (variable [n]) defs in
               let '(ns, defs) := go l' false defs in
               (Attr k n st (toml_ws first) :: ns, defs)
           end) l true defs in
      (Lst ns st [] st (toml_ws leading), defs)
  end.

(** [expander.rs:2103-2235] [expand_toml]. *)
Definition expand_toml (E : env) (text sep : bytes) (st : site) (defs : scope)
  : res (list node) * scope :=
  match e_toml E text with
  | None => (Err (EErr EToml st), defs)
  | Some table =>
      let '(n, defs) := traverse sep st [] (TomlTable table) true defs in
      (Ok [n], defs)
  end.
