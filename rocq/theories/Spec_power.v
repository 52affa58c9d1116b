(** * Specification: what a program does not mention it cannot use

    Used by C74.  [symbols] is in Spec_expand.v. *)

From Coq Require Import String List Ascii Bool Arith.
From Verif Require Import Text Res Ast Env Parser Spec_expand Spec_final Spec_lang.
Import ListNotations.

(** A macro is mentioned to call it, or to pass its name to [%map],
    [%filter], [%apply] or [%sort]. *)
Definition mentioned (m : bytes) (n : node) : Prop :=
  In m (symbols n) \/ In (b "%" ++ m) (symbols n).
Definition without (M : list bytes) (n : node) : Prop := forall m, In m M -> ~ mentioned m n.

(** Sets of macros that can be withheld from a program: built-in ones, among
    them [%symbol], by which it could make up their names, and without [%do],
    which [%sort] uses if no key is given. *)
Definition withheld (M : list bytes) : Prop :=
  In (b "symbol") M /\ ~ In (b "do") M /\ forall m, In m M -> reserved m.

(** A program that mentions none of [M], nor do the files it could include. *)
Record confined (M : list bytes) (E : env) (text : bytes) : Prop := {
  in_program : forall tree, parse (e_unescape E) 0 text = Ok tree -> Forall (without M) tree;
  in_files : In (b "include") M \/
    forall path text id tree, e_read E path = Some text -> parse (e_unescape E) id text = Ok tree ->
      Forall (without M) tree;
  in_dates : incl [b "toml"; b "markdown"] M \/ dates_are_dates E
}.

(** Two worlds that differ only in what the macros [M] look at. *)
Record same_but (M : list bytes) (E E' : env) : Prop := {
  by_unescape : e_unescape E = e_unescape E';
  by_files : incl [b "include"; b "embed"] M \/ e_read E = e_read E' /\ e_includes E = e_includes E';
  by_env : incl [b "os/env"] M \/ e_getenv E = e_getenv E';
  by_lambda : incl [b "lambda"] M \/ e_hash E = e_hash E';
  by_sort : incl [b "sort"] M \/ e_float E = e_float E' /\ e_unsorted E = e_unsorted E';
  by_zone : incl [b "date"; b "timestamp"] M \/
    e_fixed E = e_fixed E' /\ e_local E = e_local E' /\ e_time_ok E = e_time_ok E';
  by_date : incl [b "date"] M \/ e_date E = e_date E';
  by_timestamp : incl [b "timestamp"] M \/
    e_parse_date E = e_parse_date E' /\ e_parse_naive E = e_parse_naive E';
  by_format : incl [b "format"] M \/ e_template E = e_template E' /\ e_format E = e_format E';
  by_markdown : incl [b "markdown"] M \/ e_html E = e_html E' /\ e_front E = e_front E';
  by_yaml : incl [b "yaml"; b "json"; b "markdown"] M \/ e_yaml E = e_yaml E';
  by_toml : incl [b "toml"; b "markdown"] M \/ e_toml E = e_toml E';
  by_glob : incl [b "glob"] M \/ e_glob E = e_glob E' /\ e_unlisted E = e_unlisted E'
}.
