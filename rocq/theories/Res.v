(** * Outcomes of modelled functions

    Source positions, errors, panics and the outcome monad. *)

From Coq Require Import List Ascii.
From Verif Require Import Text.

(** [tokens.rs:8-16] [struct Site].  The two [&str] fields (path and text of
    the source file) are represented by one number [s_src] identifying the
    source buffer; which buffers exist, and whether they are still allocated,
    is part of the expander's state. *)
Record site := Site {
  s_src  : nat;   (* source, source_code *)
  s_line : nat;   (* line *)
  s_off  : nat;   (* bytes_from_start *)
  s_col  : nat;   (* bytes_from_start_of_line *)
  s_span : nat    (* bytes_span *)
}.

(** Kinds of error ([LexError], [ParseError], [ExpansionError],
    [GenerationError]); the English message texts are not modelled. *)
Inductive ekind :=
(* lexer.rs / parser.rs *)
| EUnclosedTriple | EUnclosedString | EBadEscape
| EUnexpectedRParen | EExpectedRParen | EKeywordNoValue
(* assemble *)
| EXmlAttribute | EXmlRaw | EXmlEmptyList | EXmlHeadNotSymbol | EXmlAttrValue
| EXmlDeclNode
| EHtmlAttribute | EHtmlEmptyList | EHtmlHeadNotSymbol | EHtmlAttrValue
| EHtmlDeclNode | EHtmlVoidChildren | EHtmlStyle
| ECssEmptyFunction | ECssHeadNotSymbol | ECssAttrInValue
| ECssNotRule | ECssSelectorNotAtomic | ECssNotProperty | ECssSpecialBad
(* expander.rs, macros.rs *)
| EArgNamed | EArgExcess | EArgMissing | EArgType | EArgValue | EArgAttribute
| EBindExpectedList | EBindTooFew | EBindExcess | EBindExcessKeyword
| EBindPattern | EBindParamsOrder | EBindMultiRest
| EMatch | EDefine | EIfdef | EInclude | EEmbed | EMarkdown | EYaml | EToml
| EGet | EDate | ETimestamp | ELog | EEnv | EFormat | ENamespace | EFor
| EGlob | ERaw | EString | ENumber | ESymbol | EReverse | ESort | EJoin
| EConcat | EMap | EFilter | ESplat | EList | EStrip | EApply | ELambda
| EMacroNotFound | EUndefined.

Inductive err := EErr (k : ekind) (s : site).

(** Ways the Rust code panics. *)
Inductive panic :=
| PIndex        (* slice or array index out of range *)
| PUnwrap       (* [unwrap]/[expect] on [None]/[Err], failed [assert!] *)
| PUnreachable  (* [unreachable!] *)
| POverflow     (* arithmetic overflow (debug builds) *)
| PSortOrder    (* [sort_by] with an inconsistent comparison *)
| PExplicit.    (* [panic!] *)

Inductive res (A : Type) :=
| Ok (a : A)
| Err (e : err)
| Panic (p : panic)
| Hang            (* a loop in the code that provably never exits *)
| OutOfFuel.      (* the model's recursion budget ran out *)
Arguments Ok {A} a.
Arguments Err {A} e.
Arguments Panic {A} p.
Arguments Hang {A}.
Arguments OutOfFuel {A}.

Definition bind {A B} (r : res A) (k : A -> res B) : res B :=
  match r with
  | Ok a => k a
  | Err e => Err e
  | Panic p => Panic p
  | Hang => Hang
  | OutOfFuel => OutOfFuel
  end.

Definition rmap {A B} (f : A -> B) (r : res A) : res B :=
  bind r (fun a => Ok (f a)).

Notation "'let*' x ':=' e 'in' k" := (bind e (fun x => k))
  (at level 200, x name, e at level 200, k at level 200).
Notation "'let*' ' p ':=' e 'in' k" := (bind e (fun p => k))
  (at level 200, p strict pattern, e at level 200, k at level 200).

(** [for x in l { f(x)? }] collecting results. *)
Fixpoint mapr {A B} (f : A -> res B) (l : list A) : res (list B) :=
  match l with
  | nil => Ok nil
  | cons x l' => let* y := f x in let* ys := mapr f l' in Ok (cons y ys)
  end.
