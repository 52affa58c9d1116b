(** * Property C71: positions do not matter *)

From Coq Require Import String List Ascii Bool Arith Permutation.
From Verif Require Import Text Utf8 Res Ast Parser Env Scope State Cli Spec_grammar Spec_keep Spec_place Spec_moved
  Proofs_moved Proofs_moved_out Proofs_reworded Conformance Runs Properties_macros Properties_lang.
From Verif Require Import Args Expander.
Import ListNotations.

(** Sources with the same tokens and the same whitespace are read alike:
    trees with corresponding positions, or the same error at corresponding
    positions. *)
Theorem c71_reading : forall unescape src src', utf8 src -> utf8 src' -> Reworded src src' ->
  match parse unescape 0 src, parse unescape 0 src' with
  | Ok ns, Ok ns' => Forall2 (alike (partners src src')) ns ns'
  | Err (EErr k st), Err (EErr k' st') => k = k' /\ moved (partners src src') st st'
  | _, _ => False
  end.
Proof. exact parse_reworded. Qed.
Print Assumptions c71_reading.

(** Trees that differ in positions only expand alike, if no lambda is made:
    the name of a lambda is made of its position. *)
Theorem c71_expansion : forall R E fuel ns ns' path text text', permuting E -> reads_text E ->
  Forall2 (alike R) ns ns' -> lambda_free E fuel ns (initial path text) ->
  alike_outcome R (expand_nodes E fuel ns (initial path text)) (expand_nodes E fuel ns' (initial path text')).
Proof. intros. apply expansion_alike; [assumption..|apply initial_alike|assumption]. Qed.
Print Assumptions c71_expansion.

(** So does the whole program. *)
Theorem c71_program : forall E fuel path text text', permuting E -> reads_text E ->
  utf8 text -> utf8 text' -> Reworded text text' ->
  (forall tree, parse (e_unescape E) 0 text = Ok tree -> lambda_free E fuel tree (initial path text)) ->
  alike_outcome (partners text text') (expand E fuel path text) (expand E fuel path text').
Proof. exact program_reworded. Qed.
Print Assumptions c71_program.

(** From such trees every target makes the same document, except that HTML
    copies the content of pre from the source. *)
Theorem c71_document : forall R printable target doc ns ns' s s', Forall2 (alike R) ns ns' ->
  (target = b "html" -> Forall preless ns) ->
  match formatted printable target doc ns s, formatted printable target doc ns' s' with
  | inl r, inl r' => alike_document R r r'
  | inr code, inr code' => code = code'
  | _, _ => False
  end.
Proof. exact formatted_alike. Qed.
Print Assumptions c71_document.

(** A run that ends without waiting for any lambda makes none. *)
Theorem c71_lambda_free : forall E fuel tree s,
  exs (fun n s => run_with OutOfFuel E fuel (TNode n) s) tree s <> OutOfFuel -> lambda_free E fuel tree s.
Proof. exact lambda_free_ends. Qed.
Print Assumptions c71_lambda_free.

(** ** Examples *)

Lemma env1_orders : permuting env1.
Proof. intros seed l. apply Permutation_refl. Qed.

(** Two comments become one, another is changed, a string gets its three
    quotes: the same nodes, printed the same. *)
Definition c71_text := b "; The name.
; One line more.
(%define who ""world"")
(p (%ifdef who %who nobody)) ; the end".
Definition c71_text' := b "; Whose name?
(%define who """"""world"""""")
(p (%ifdef who %who nobody))".

Example c71_reworded : utf8 c71_text /\ utf8 c71_text' /\ Reworded c71_text c71_text'.
Proof. apply (reworded_by 40); vm_compute; reflexivity. Qed.
Example c71_no_lambda : forall tree, parse (e_unescape env1) 0 c71_text = Ok tree ->
  lambda_free env1 20 tree (initial [] c71_text).
Proof.
  intros tree H. apply (f_equal (fun r => match r with Ok t => t | _ => [] end)) in H. cbv beta iota in H. subst tree.
  apply c71_lambda_free. vm_compute. discriminate.
Qed.
Example c71_example :
  alike_outcome (partners c71_text c71_text') (expand env1 20 [] c71_text) (expand env1 20 [] c71_text') /\
  shown_as (expand env1 20 [] c71_text) = Ok (b "
(p ""world"")") /\ expand env1 20 [] c71_text <> expand env1 20 [] c71_text'.
Proof.
  split; [|split; [vm_compute; reflexivity|]].
  - destruct c71_reworded as (U & U' & RW).
    exact (c71_program env1 20 [] _ _ env1_orders env1_reads U U' RW c71_no_lambda).
  - vm_compute. discriminate.
Qed.

Lemma alike_failed R r r' k st k' st' : alike_outcome R r r' -> r = Err (EErr k st) -> r' = Err (EErr k' st') -> k = k' /\ moved R st st'.
Proof. intros [] Q Q'; try discriminate. injection Q as <- <-. injection Q' as <- <-. auto. Qed.

(** The same error, two lines further up. *)
Definition c71_wrong := b ";
;
;
(p %nobody)".
Definition c71_wrong' := b ";
(p %nobody)".
Example c71_error : Reworded c71_wrong c71_wrong' /\
  exists st st', expand env1 20 [] c71_wrong = Err (EErr EUndefined st) /\ expand env1 20 [] c71_wrong' = Err (EErr EUndefined st') /\
    partners c71_wrong c71_wrong' st st' /\ s_line st = 4 /\ s_line st' = 2.
Proof.
  assert (H : utf8 c71_wrong /\ utf8 c71_wrong' /\ Reworded c71_wrong c71_wrong') by (apply (reworded_by 40); vm_compute; reflexivity).
  destruct H as (U & U' & RW). split; [exact RW|].
  assert (A := c71_program env1 20 [] _ _ env1_orders env1_reads U U' RW).
  assert (LF : forall tree, parse (e_unescape env1) 0 c71_wrong = Ok tree -> lambda_free env1 20 tree (initial [] c71_wrong)).
  { intros tree H. apply (f_equal (fun r => match r with Ok t => t | _ => [] end)) in H. cbv beta iota in H. subst tree.
    apply c71_lambda_free. vm_compute. discriminate. }
  assert (X : expand env1 20 [] c71_wrong = Err (EErr EUndefined (Site 0 4 9 3 7))) by (vm_compute; reflexivity).
  assert (X' : expand env1 20 [] c71_wrong' = Err (EErr EUndefined (Site 0 2 5 3 7))) by (vm_compute; reflexivity).
  destruct (alike_failed _ _ _ _ _ _ _ (A LF) X X') as [_ [_ M]].
  exists (Site 0 4 9 3 7), (Site 0 2 5 3 7). split; [exact X|]. split; [exact X'|]. split; [exact M|]. split; reflexivity.
Qed.

(** A lambda shows its position, in its name. *)
Definition c71_lambda := b ";
;
(%lambda (x) %x)".
Definition c71_lambda' := b ";
(%lambda (x) %x)".
Example c71_lambda_shows : Reworded c71_lambda c71_lambda' /\
  shown_as (expand env1 20 [] c71_lambda) = Ok (b "
__lambda3-4") /\
  shown_as (expand env1 20 [] c71_lambda') = Ok (b "
__lambda2-2").
Proof.
  split; [apply (reworded_by 40); vm_compute; reflexivity|]. split; vm_compute; reflexivity.
Qed.

(** A preformatted element shows the comments inside it. *)
Definition c71_pre := b "(pre a ; one
 b)".
Definition c71_pre' := b "(pre a ; two
 b)".
Definition c71_html (src : bytes) : option (res bytes) :=
  match expand env1 20 [] src with
  | Ok (ns, s) => match formatted (fun _ => true) (b "html") false ns s with inl r => Some r | inr _ => None end
  | _ => None
  end.
Example c71_pre_shows : Reworded c71_pre c71_pre' /\
  c71_html c71_pre = Some (Ok (b "<pre>a ; one
 b</pre>")) /\ c71_html c71_pre' = Some (Ok (b "<pre>a ; two
 b</pre>")).
Proof.
  split; [apply (reworded_by 40); vm_compute; reflexivity|]. split; vm_compute; reflexivity.
Qed.
