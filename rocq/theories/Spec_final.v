(** * Specification: programs that make no symbols from text

    Used by C72.  [symbols] and [macro_free] are in Spec_expand.v. *)

From Coq Require Import String List Ascii Bool Arith.
From Verif Require Import Text Res Ast Env Parser Spec_expand.
Import ListNotations.

(** The macro [%symbol] is not mentioned, neither to call it nor to pass its
    name to [%map], [%filter], [%apply] or [%sort]. *)
Definition symbol_unused (n : node) : Prop :=
  ~ In (b "symbol") (symbols n) /\ ~ In (b "%symbol") (symbols n).

(** Nor is it in any file that could be included. *)
Definition symbol_unused_in_files (E : env) : Prop := forall path text id tree,
  e_read E path = Some text -> parse (e_unescape E) id text = Ok tree -> Forall symbol_unused tree.

(** The only symbols that come from data are the words true and false and the
    dates of TOML, which start with a digit. *)
Fixpoint toml_dates (v : toml) : list bytes :=
  match v with
  | TomlDate s => [s]
  | TomlString _ | TomlFloat _ | TomlInt _ | TomlBool _ => []
  | TomlArray l => flat_map toml_dates l
  | TomlTable l => flat_map (fun '(_, v) => toml_dates v) l
  end.
Definition starts_with_digit (s : bytes) : Prop :=
  match s with c :: _ => nat_of_ascii "0" <= nat_of_ascii c <= nat_of_ascii "9" | [] => False end.
Definition dates_are_dates (E : env) : Prop := forall text t,
  e_toml E text = Some t -> Forall starts_with_digit (toml_dates (TomlTable t)).
