(** * Property C51: which expansions panic or hang *)

From Coq Require Import String List Ascii Bool Arith NArith ZArith Permutation Lia.
From Verif Require Import Text Utf8 Res Ast Env Scope State Parser Sorting Expander
  Spec_grammar Spec_expand Spec_sort Spec_data Spec_world Spec_keep Spec_panic
  Proofs_parser Proofs_print Proofs_eval Proofs_panic Proofs_data Conformance Runs Properties_macros.
Import ListNotations.

(** If an expansion panics, there is a cause; if the parser hangs, then on the
    source or a file in which the last expression is an identifier cut short. *)
Theorem c51_panic : forall E f path text p, permuting E -> reads_text E -> utf8 text ->
  expand E f path text = Panic p -> cause E p.
Proof. exact expand_panics. Qed.
Print Assumptions c51_panic.

Theorem c51_hang : forall E f path text, permuting E -> reads_text E -> utf8 text ->
  expand E f path text = Hang -> Dangling (e_unescape E) text \/ stuck E.
Proof. exact expand_hangs. Qed.
Print Assumptions c51_hang.

(** Hence, if the libraries and the file system do nothing unusual, expansion
    gives a tree or an error, or exceeds the budget, unless an attribute
    value expands to nothing or the keys of %sort are inconsistent. *)
Theorem c51_smooth : forall E f path text, permuting E -> reads_text E -> utf8 text ->
  smooth E -> ~ Dangling (e_unescape E) text ->
  match expand E f path text with
  | Panic p => p = PIndex \/ p = PSortOrder
  | Hang => False
  | _ => True
  end.
Proof. exact expand_smooth. Qed.
Print Assumptions c51_smooth.

(** Where the former comes from; the latter is described by C29. *)
Theorem c51_attribute : forall E k v st w s,
  eval E (Attr k v st w) s (Panic PIndex) <->
  eval E v s (Panic PIndex) \/ exists s', eval E v s (Ok ([], s')).
Proof. exact attribute_panics. Qed.
Print Assumptions c51_attribute.

(** Each of the causes occurs: an attribute without value; a mapping as key
    and an alias as key; a date format; a time zone; metadata; keys of which
    two are numbers.  And "\" at the end of the source. *)
Definition c51_env : env := docs
  [(b "key", ([YMapStart; YSeqStart; YScalar (b "k"); YSeqEnd; YScalar (b "v"); YMapEnd], true));
   (* {a: *x, b: {c: d}}: the alias gives no node *)
   (b "alias", ([YMapStart; YScalar (b "a"); YOther; YScalar (b "b"); YMapStart; YScalar (b "c"); YScalar (b "d");
      YMapEnd; YMapEnd], true))] [] []
  [(b "gone", [Some (b "x", None)])].
Example c51_examples : permuting c51_env /\ reads_text c51_env /\
  panics c51_env (b "(a :k (%define x 1))") PIndex /\
  panics c51_env (b "(%yaml ""key"")") PUnwrap /\
  panics c51_env (b "(%yaml ""alias"")") PUnwrap /\
  panics c51_env (b "(%date ""%"" 100)") PUnwrap /\
  panics c51_env (b "(%date ""%Y"" 100 :timezone 600000)") POverflow /\
  panics c51_env (b "(%glob gone)") PUnwrap /\
  panics c51_env (b "(%sort (2 10 1a))") PSortOrder /\
  expand c51_env 9 [] (b "(a \") = Hang.
Proof.
  split; [intros seed l; apply Permutation_refl|]. split; [intros p t H; discriminate H|].
  repeat match goal with |- _ /\ _ => split end; first [fails_with | vm_compute; reflexivity].
Qed.

(** An environment in which nothing unusual happens, and the two panics in it. *)
Definition c51_calm : env := {|
  e_order := e_order c51_env; e_unescape := e_unescape c51_env; e_read := e_read c51_env;
  e_includes := []; e_getenv := e_getenv c51_env; e_hash := e_hash c51_env;
  e_float := e_float c51_env; e_fixed := fun _ => Some (2 ^ 32)%Z; e_local := 0%Z;
  e_time_ok := e_time_ok c51_env; e_date := fun _ _ _ => Some (b "today");
  e_parse_date := e_parse_date c51_env; e_parse_naive := e_parse_naive c51_env;
  e_template := e_template c51_env; e_format := e_format c51_env;
  e_html := e_html c51_env; e_front := e_front c51_env;
  e_yaml := fun _ => ([YMapStart; YScalar (b "a"); YScalar (b "x"); YMapEnd], true);
  e_toml := e_toml c51_env; e_glob := fun _ => Some []; e_unsorted := fun _ => None; e_unlisted := fun _ => (0, [])
|}.
Example c51_smooth_example : smooth c51_calm /\
  ~ Dangling (e_unescape c51_calm) (b "(%yaml ""a: x"") (%date ""%Y"")") /\
  yields c51_calm (b "(%yaml ""a: x"") (%date ""%Y"")") (b "(:a ""x"") ""today""") /\
  panics c51_calm (b "(a :k (%define x 1))") PIndex /\
  panics c51_calm (b "(%sort (2 10 1a))") PSortOrder.
Proof.
  split; [constructor|split; [|split; [|split]]].
  - intros text es ok H. inversion H. exists [], (Table [(b "a", Leaf LText (b "x"))]). split; reflexivity.
  - discriminate.
  - intros text h H. inversion H. unfold representable. lia.
  - intros pat l p H. inversion H. intros [].
  - discriminate.
  - intros D. apply (parse_hang_iff _ 0) in D; [vm_compute in D; discriminate D|apply is_utf8; reflexivity].
  - shows.
  - fails_with.
  - fails_with.
Qed.
