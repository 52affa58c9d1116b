(** * Properties of names that are not text (C73) *)

From Coq Require Import String List Ascii Bool Arith NArith ZArith.
From Verif Require Import Text Utf8 Res Ast Env State Args Lossy Sorting Expander Spec_lossy Spec_args Spec_expand
  Spec_builtin Spec_scope Spec_sort Spec_world Proofs_lossy Proofs_glob Runs.
Import ListNotations.

(** ** C73: the names in a listing are text *)

(** Sorted and told apart by their bytes, shown as far as they are legible. *)
Theorem c73_names : forall E args n s vs s1 pat t k up l all cmp out names,
  is_call (b "glob") args n -> evals E (received args) (entered n s) (Ok (vs, s1)) -> listing_args vs pat t k up ->
  e_glob E (a_val pat) = Some l -> all_found l = Some all ->
  compares_by k cmp -> collected E cmp (listing t all) out ->
  Forall2 (fun f name => Legible (f_path f) name) (if up then out else rev out) names ->
  eval E n s (Ok (shown_names (a_site pat) names, noted n s s1)).
Proof. exact listed_names. Qed.
Print Assumptions c73_names.

(** There is always exactly one way to do so, which the program computes. *)
Theorem c73_exists : forall s, exists! t, Legible s t.
Proof. exact legible_exists. Qed.
Print Assumptions c73_exists.
Theorem c73_legible : forall s t, Legible s t <-> t = lossy s.
Proof. exact lossy_iff. Qed.
Print Assumptions c73_legible.

(** The result is text; a name that is text, and only such a name, is shown
    unchanged; so is every part at the front that is text, and every ASCII
    character. *)
Theorem c73_text : forall s t, Legible s t -> utf8 t.
Proof. exact legible_utf8. Qed.
Print Assumptions c73_text.
Theorem c73_same : forall s, Legible s s <-> utf8 s.
Proof. exact legible_same. Qed.
Print Assumptions c73_same.
Theorem c73_front : forall s s' t, utf8 s -> Legible s' t -> Legible (s ++ s') (s ++ t).
Proof. exact utf8_legible. Qed.
Print Assumptions c73_front.
Theorem c73_ascii : forall s t, Legible s t -> ascii_part t = ascii_part s.
Proof. exact legible_ascii. Qed.
Print Assumptions c73_ascii.

(** A byte that is never text; a character cut short; one that would be a
    surrogate; two names shown alike. *)
Definition c73_bytes (l : list nat) : bytes := map ascii_of_nat l.
Definition c73_fffd : bytes := c73_bytes [239; 191; 189].
Definition c73_path (l : list nat) := Some (b "a" ++ c73_bytes l ++ b ".x", Some (Meta true false (Some 1) (Some 2)))%Z.
Definition c73_env : env := docs [] [] []
  [(b "*", [c73_path [255]; c73_path [226; 130]; c73_path [226; 130; 172]; c73_path [237; 160; 128]; c73_path [254]])].
Definition c73_quoted (s : bytes) := b """a" ++ s ++ b ".x""".
Example c73_example :
  yields c73_env (b "(%glob * :sort name)")
    (c73_quoted c73_fffd ++ b " " ++ c73_quoted (c73_bytes [226; 130; 172]) ++ b " " ++
     c73_quoted (c73_fffd ++ c73_fffd ++ c73_fffd) ++ b " " ++ c73_quoted c73_fffd ++ b " " ++ c73_quoted c73_fffd).
Proof. runs. Qed.
Example c73_cut : Legible (c73_bytes [240; 159; 152; 65]) (c73_fffd ++ b "A").
Proof. apply c73_legible. reflexivity. Qed.
