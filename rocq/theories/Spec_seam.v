(** * Specification of the program as a whole

    From the arguments to the text on standard output and the exit code, by
    rules only: the command line of Spec_cli.v, the grammar with positions of
    Spec_place.v and the macro language of Spec_lang.v, and the written forms
    of Spec_element.v. *)

From Coq Require Import String List Ascii Bool Arith.
From Verif Require Import Text Utf8 Res Ast Env State Cli Spec_keep Spec_output Spec_css Spec_element Spec_order Spec_cli.
From Verif Require Import Spec_lang.
Import ListNotations.

(** ** Documents *)

(** Somewhere in the tree, at most [d] levels deep, is a list named [tag]. *)
Definition has_list (tag : string) (d : nat) (t : list node) : Prop :=
  exists n, In n t /\ ListWithin (b tag) d n.
(** The text [x], left out if [P]. *)
Definition unless (P : Prop) (x s : bytes) : Prop := (P /\ s = []) \/ (~ P /\ s = x).

(** The page around the markup [c] of a tree. *)
Inductive Page (t : list node) (c : bytes) : bytes -> Prop :=
| page_own : has_list "!doctype" 1 t -> Page t c c
| page_typed : ~ has_list "!doctype" 1 t -> has_list "html" 1 t ->
    Page t c (b "<!DOCTYPE html>" ++ [LF] ++ c)
| page_wrapped head opening closing : ~ has_list "!doctype" 1 t -> ~ has_list "html" 1 t ->
    unless (has_list "head" 2 t) (b "<head></head>" ++ [LF]) head ->
    unless (has_list "body" 2 t) (b "<body>" ++ [LF]) opening ->
    unless (has_list "body" 2 t) (b "</body>" ++ [LF]) closing ->
    Page t c (b "<!DOCTYPE html>" ++ [LF] ++ b "<html>" ++ [LF] ++ head ++ opening ++ c ++ [LF] ++
              closing ++ b "</html>").
Definition empty_page : bytes :=
b "<!DOCTYPE html>
<html>
<head></head>
<body>
<!-- Generated by SEAM (empty file) -->
</body>
</html>
".

Definition xml_header : bytes := b "<?xml version=""1.0"" encoding=""UTF-8"" ?>" ++ [LF].
Definition declares_xml (t : list node) : Prop :=
  exists n l, t = n :: l /\ headed_by_any_case (b "?xml") n.

(** What is written for a tree in the language [target], as a document or not. *)
Inductive Output (printable : bytes -> bool) (files : nat -> bytes) (t : list node) : bytes -> bool -> res bytes -> Prop :=
| out_bare target r : WrittenAs printable files t target r -> Output printable files t target false r
| out_same target r : In target [b "text"; b "sexp"] -> WrittenAs printable files t target r ->
    Output printable files t target true r
| out_no_css : t = [] -> Output printable files t (b "css") true (Ok [LF])
| out_css r : t <> [] -> WrittenAs printable files t (b "css") r -> Output printable files t (b "css") true r
| out_no_html : t = [] -> Output printable files t (b "html") true (Ok empty_page)
| out_html c s : t <> [] -> WrittenAs printable files t (b "html") (Ok c) -> Page t c s ->
    Output printable files t (b "html") true (Ok s)
| out_xml c h : WrittenAs printable files t (b "xml") (Ok c) -> unless (declares_xml t) xml_header h ->
    Output printable files t (b "xml") true (Ok (h ++ c))
| out_fault target r : In target [b "html"; b "xml"] -> WrittenAs printable files t target r ->
    (forall s, r <> Ok s) -> Output printable files t target true r.

(** ** The program *)

(** The [n]-th source, translated: the text or what stops it; nothing if the
    source cannot be read. *)
Inductive Translated (W : world) (target : bytes) (doc : bool) (path : list bytes) (n : nat) (job : option bytes) :
  option (res bytes) -> Prop :=
| tr_unread name : source_of W (w_env W n) job = (name, None) -> Translated W target doc path n job None
| tr_stops name text q : source_of W (w_env W n) job = (name, Some text) ->
    program_means (with_includes path (w_env W n)) name text q -> (forall x, q <> Ok x) ->
    Translated W target doc path n job (Some (rmap (fun _ => []) q))
| tr_writes name text tree c r : source_of W (w_env W n) job = (name, Some text) ->
    program_means (with_includes path (w_env W n)) name text (Ok (tree, c)) ->
    Output (w_printable W) (fun i => snd (nth i (k_files c) ([], []))) tree target doc r ->
    Translated W target doc path n job (Some r).

(** The sources from the [n]-th on: each text is followed by a line feed,
    until one of them fails. *)
Inductive Printed (W : world) (target : bytes) (doc : bool) (path : list bytes) :
  nat -> list (option bytes) -> bytes -> ending -> Prop :=
| pr_done n : Printed W target doc path n [] [] (Exit 0)
| pr_next n job l text out e : Translated W target doc path n job (Some (Ok text)) ->
    Printed W target doc path (S n) l out e -> Printed W target doc path n (job :: l) (text ++ [LF] ++ out) e
| pr_fail n job l r e : Translated W target doc path n job r -> ends W n r = Some e ->
    Printed W target doc path n (job :: l) [] e.

(** [Seam W args out e]: the program called with [args] prints [out] and ends
    with [e]. *)
Inductive Seam (W : world) (args : list bytes) : bytes -> ending -> Prop :=
| seam_stops before cs arg c code after : args = before ++ arg :: after ->
    Forall2 (understood W) before cs -> Forall (fun c => stops c = None) cs ->
    understood W arg c -> stops c = Some code -> Seam W args [] (Exit code)
| seam_no_target cs : Forall2 (understood W) args cs -> Forall (fun c => stops c = None) cs ->
    targets_of cs = [] -> Seam W args [] (Exit 1)
| seam_prints cs ts target l doc path out e : Forall2 (understood W) args cs -> Forall (fun c => stops c = None) cs ->
    targets_of cs = ts ++ [target] -> jobs cs l -> as_document cs doc -> search_path cs path ->
    Printed W target doc path 0 l out e -> Seam W args out e.

(** ** What the program may assume *)

(** Everything read is text in UTF-8. *)
Definition textual_world (W : world) : Prop :=
  (forall n, textual (w_env W n)) /\ forall t, w_stdin W = Some t -> utf8 t.
(** The n-th source is expanded with the n-th order of hash maps. *)
Definition with_orders (os : nat -> nat -> list bytes -> list bytes) (W : world) : world :=
  World (w_exists W) (w_stdin W) (fun n => with_order (os n) (w_env W n)) (w_printable W) (w_shows W).
(** No source has two meanings. *)
Definition unambiguous (W : world) (path : list bytes) : Prop :=
  forall n job name text q q', source_of W (w_env W n) job = (name, Some text) ->
    program_means (with_includes path (w_env W n)) name text q ->
    program_means (with_includes path (w_env W n)) name text q' -> q = q'.
