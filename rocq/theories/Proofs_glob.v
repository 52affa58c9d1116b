(** * Proofs about the names in a listing *)

From Coq Require Import String List Ascii Bool Arith NArith ZArith.
From Verif Require Import Text Res Ast Env State Args Lossy Sorting Expander Spec_lossy Spec_args Spec_expand
  Spec_builtin Spec_scope Spec_sort Spec_world Proofs_lossy Proofs_world Proofs_import Proofs_stream.
Import ListNotations.

Lemma shown_paths st fs ts : Forall2 (fun f t => Legible (f_path f) t) fs ts -> shown_names st ts = path_nodes st fs.
Proof.
  assert (M : forall fs ts, Forall2 (fun f t => Legible (f_path f) t) fs ts -> ts = map (fun f => lossy (f_path f)) fs).
  { induction 1 as [|f t fs0 ts0 H HS IH]; [reflexivity|]. cbn. apply lossy_iff in H. rewrite H, <- IH. reflexivity. }
  intros H. rewrite (M _ _ H). destruct fs as [|f fs]; [reflexivity|]. cbn. rewrite map_map. reflexivity.
Qed.

Lemma listed_names E args n s vs s1 pat t k up l all cmp out names :
  is_call (b "glob") args n -> evals E (received args) (entered n s) (Ok (vs, s1)) -> listing_args vs pat t k up ->
  e_glob E (a_val pat) = Some l -> all_found l = Some all ->
  compares_by k cmp -> collected E cmp (listing t all) out ->
  Forall2 (fun f name => Legible (f_path f) name) (if up then out else rev out) names ->
  eval E n s (Ok (shown_names (a_site pat) names, noted n s s1)).
Proof.
  intros C V A G F K O N. rewrite (shown_paths _ _ _ N).
  exact (listed_any E args n s vs s1 pat t k up l all cmp out C V A G F K O).
Qed.
