(** * Specification: what makes an expansion panic or hang *)

From Coq Require Import String List Ascii Bool Arith ZArith.
From Verif Require Import Text Res Ast Env Sorting Spec_grammar Spec_sort Spec_data Spec_world.
Import ListNotations.

(** The events are those of a document without aliases in which all keys are
    scalars, or of the first part of one. *)
Definition ordinary (es : list yevent) : Prop :=
  exists rest d, content es ++ rest = events d /\ texts_only d = true.

(** The causes of panics.  That of [PIndex] is in the program: an attribute
    whose value expands to nothing. *)
Inductive cause (E : env) : panic -> Prop :=
| cause_attribute : cause E PIndex
| cause_yaml p text es ok : p = PUnwrap \/ p = PExplicit ->
    e_yaml E text = (es, ok) -> ~ ordinary es -> cause E p
| cause_format time off fmt : within_day off -> e_date E time off fmt = None -> cause E PUnwrap
| cause_zone text h : e_fixed E text = Some h -> ~ representable h -> cause E POverflow
| cause_metadata pat l p : e_glob E pat = Some l -> In (Some (p, None)) l -> cause E PUnwrap
| cause_order descending items :
    sorts E (by_key E descending) items (Panic PSortOrder) -> cause E PSortOrder.

(** The parser hangs on a file. *)
Definition stuck (E : env) : Prop :=
  exists path text, e_read E path = Some text /\ Dangling (e_unescape E) text.

(** Nothing unusual happens outside. *)
Record smooth (E : env) : Prop := Smooth {
  s_yaml : forall text es ok, e_yaml E text = (es, ok) -> ordinary es;
  s_date : forall time off fmt, e_date E time off fmt <> None;
  s_zone : forall text h, e_fixed E text = Some h -> representable h;
  s_glob : forall pat l p, e_glob E pat = Some l -> ~ In (Some (p, None)) l;
  s_read : forall path text, e_read E path = Some text -> ~ Dangling (e_unescape E) text
}.
