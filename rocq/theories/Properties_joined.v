(** * Property C81: sources put one after the other

    [further], [spaced]: Spec_joined.v; [shape] forgets positions and whitespace
    (Spec_tree.v). *)

From Coq Require Import String List Ascii Bool Arith.
From Verif Require Import Text Utf8 Res Ast Parser Env Scope State Args Expander Spec_grammar Spec_tree Spec_keep Spec_moved
  Spec_joined Proofs_print Proofs_moved Proofs_moved_out Proofs_reworded Proofs_joined Proofs_joined_run
  Conformance Runs Properties_macros Properties_moved.
Import ListNotations.

(** If a source is well formed, what the parser makes of it followed by a line
    feed and any other text is known from the two by themselves: the trees of
    the first and those of the second, further on by the bytes in front and by
    a number of lines that depends on the first alone, with other whitespace
    before the first of them; or the same syntax error, further on by the bytes
    in front; or the parser hangs as it does on the second (C01). *)
Theorem c81_joined : forall unescape id a ns, utf8 a -> parse unescape id a = Ok ns ->
  exists l, newlines a < l /\ forall z, utf8 z ->
  match parse unescape id z with
  | Ok ms => exists w,
      parse unescape id (a ++ LF :: z) = Ok (ns ++ spaced w (map (further (length a + 1) l) ms))
  | Err (EErr k st) => exists st', parse unescape id (a ++ LF :: z) = Err (EErr k st') /\
      s_off st' = length a + 1 + s_off st /\ s_span st' = s_span st
  | Hang => parse unescape id (a ++ LF :: z) = Hang
  | Panic _ | OutOfFuel => False
  end.
Proof. exact parse_joined. Qed.
Print Assumptions c81_joined.

(** So any number of well-formed sources, each on lines of its own, are read
    as one source with the trees of all. *)
Theorem c81_lines : forall unescape id ts nss,
  Forall2 (fun t ns => utf8 t /\ parse unescape id t = Ok ns) ts nss ->
  exists all, parse unescape id (concat (map (cons LF) ts)) = Ok all /\
    map shape all = concat (map (map shape) nss).
Proof.
  intros unescape id ts nss F.
  exact (all_joined unescape id ts nss F [] [] (is_utf8 [] eq_refl) eq_refl).
Qed.
Print Assumptions c81_lines.

(** A space instead of the line feed does not do: the first source may end in
    a comment. *)
Theorem c81_space_refuted : exists a z ns ms all,
  utf8 a /\ utf8 z /\ parse unescape0 0 a = Ok ns /\ parse unescape0 0 z = Ok ms /\
  parse unescape0 0 (a ++ b " " ++ z) = Ok all /\ map shape all <> map shape ns ++ map shape ms.
Proof.
  exists (b "(p x) ; end"), (b "y"). do 3 eexists.
  split; [apply is_utf8; reflexivity|]. split; [apply is_utf8; reflexivity|].
  split; [vm_compute; reflexivity|]. split; [vm_compute; reflexivity|].
  split; [vm_compute; reflexivity|]. vm_compute. discriminate.
Qed.
Print Assumptions c81_space_refuted.

(** Nor does nothing: two symbols become one. *)
Theorem c81_nothing_refuted : exists a z ns ms all,
  utf8 a /\ utf8 z /\ parse unescape0 0 a = Ok ns /\ parse unescape0 0 z = Ok ms /\
  parse unescape0 0 (a ++ z) = Ok all /\ map shape all <> map shape ns ++ map shape ms.
Proof.
  exists (b "x"), (b "y"). do 3 eexists.
  split; [apply is_utf8; reflexivity|]. split; [apply is_utf8; reflexivity|].
  split; [vm_compute; reflexivity|]. split; [vm_compute; reflexivity|].
  split; [vm_compute; reflexivity|]. vm_compute. discriminate.
Qed.
Print Assumptions c81_nothing_refuted.

Definition c81_show (x : bytes) : option (list sexp) + option (ekind * nat * nat) :=
  match parse unescape0 0 x with
  | Ok ns => inl (Some (map shape ns))
  | Err (EErr k st) => inr (Some (k, s_off st, s_span st))
  | _ => inr None
  end.
Example c81_example :
  c81_show (b "(p :k x) ; end") = inl (Some [XList [XSym (b "p"); XAttr (b "k") (XSym (b "x"))]]) /\
  c81_show (b "(p :k x) ; end" ++ LF :: b "12 y") =
    inl (Some [XList [XSym (b "p"); XAttr (b "k") (XSym (b "x"))]; XNum (b "12"); XSym (b "y")]) /\
  c81_show (b "y )") = inr (Some (EUnexpectedRParen, 2, 1)) /\
  c81_show (b "(p :k x) ; end" ++ LF :: b "y )") = inr (Some (EUnexpectedRParen, 17, 1)).
Proof. repeat split; vm_compute; reflexivity. Qed.
Example c81_lines_example :
  c81_show (concat (map (cons LF) [b "x ; one"; b "; none"; b "(y ""z"")"])) =
    inl (Some [XSym (b "x"); XList [XSym (b "y"); XStr (b "z")]]).
Proof. vm_compute. reflexivity. Qed.
(** The number of lines is that of the line feeds, or greater: a line feed in a
    string is counted twice (C04). *)
Definition c81_lines_of (x : bytes) : list nat :=
  match parse unescape0 0 x with Ok ns => map (fun n => s_line (node_site n)) ns | _ => [] end.
Example c81_positions_example :
  c81_lines_of (b "x ; one" ++ LF :: b "y") = [1; 2] /\
  c81_lines_of (DQ :: LF :: DQ :: LF :: b "y") = [1; 4].
Proof. split; vm_compute; reflexivity. Qed.

(** ** Expanding both *)

(** What a well-formed source does is not changed by the well-formed source
    after it: its error stays the same, at the same position... *)
Theorem c81_error_stays : forall E, permuting E -> reads_text E -> forall f path a z, utf8 a -> utf8 z ->
  (forall tree, parse (e_unescape E) 0 a = Ok tree -> lambda_free E f tree (initial path a)) -> forall k st,
  (exists ns, parse (e_unescape E) 0 a = Ok ns) -> (exists ms, parse (e_unescape E) 0 z = Ok ms) ->
  expand E f path a = Err (EErr k st) -> expand E f path (a ++ LF :: z) = Err (EErr k st).
Proof. exact error_stays. Qed.
Print Assumptions c81_error_stays.

(** ...and its nodes are the first that both together expand to.  (For sources
    that make no lambda, as in C71.) *)
Theorem c81_output_stays : forall E, permuting E -> reads_text E -> forall f path a z, utf8 a -> utf8 z ->
  (forall tree, parse (e_unescape E) 0 a = Ok tree -> lambda_free E f tree (initial path a)) -> forall xs s zs s2,
  expand E f path a = Ok (xs, s) -> (exists ms, parse (e_unescape E) 0 z = Ok ms) ->
  expand E f path (a ++ LF :: z) = Ok (zs, s2) -> exists ys, zs = xs ++ ys.
Proof. exact output_stays. Qed.
Print Assumptions c81_output_stays.

Definition c81_first := b "(%define x 1) (p %x) ; end".
Definition c81_failing := b "(%define x 1) (p %y) ; end".
Definition c81_second := b "(q %x)".
Lemma c81_no_lambda a : (match parse unescape0 0 a with
    | Ok t => match exs (fun n s => run_with OutOfFuel env1 20 (TNode n) s) t (initial [] a) with OutOfFuel => false | _ => true end
    | _ => true end) = true ->
  forall tree, parse (e_unescape env1) 0 a = Ok tree -> lambda_free env1 20 tree (initial [] a).
Proof.
  intros H tree P. change (e_unescape env1) with unescape0 in P. rewrite P in H. apply lambda_free_ends.
  intros Q. rewrite Q in H. discriminate H.
Qed.
Example c81_stays_example : exists ns s ns' s' k st,
  expand env1 20 [] c81_first = Ok (ns, s) /\ expand env1 20 [] (c81_first ++ LF :: c81_second) = Ok (ns', s') /\
  (exists ys, ns' = ns ++ ys) /\ length ns' = S (length ns) /\
  expand env1 20 [] c81_failing = Err (EErr k st) /\
  forall z, utf8 z -> (exists ms, parse unescape0 0 z = Ok ms) -> expand env1 20 [] (c81_failing ++ LF :: z) = Err (EErr k st).
Proof.
  destruct (expand env1 20 [] c81_first) as [[ns s]| | | |] eqn:A; try (vm_compute in A; discriminate A).
  destruct (expand env1 20 [] (c81_first ++ LF :: c81_second)) as [[ns' s']| | | |] eqn:B; try (vm_compute in B; discriminate B).
  destruct (expand env1 20 [] c81_failing) as [|[k st]| | |] eqn:C; try (vm_compute in C; discriminate C).
  exists ns, s, ns', s', k, st. split; [reflexivity|]. split; [reflexivity|].
  assert (R : reads_text env1) by (intros p t H; discriminate H).
  split; [|split; [|split; [reflexivity|]]].
  - eapply (c81_output_stays env1 env1_orders R 20 [] c81_first c81_second); [apply is_utf8; reflexivity|apply is_utf8; reflexivity| |exact A| |exact B].
    + apply c81_no_lambda. vm_compute. reflexivity.
    + eexists. vm_compute. reflexivity.
  - vm_compute in A, B. injection A as <- _. injection B as <- _. reflexivity.
  - intros z U Z. apply c81_error_stays; [exact env1_orders|exact R|apply is_utf8; reflexivity|exact U| | |exact Z|exact C].
    + apply c81_no_lambda. vm_compute. reflexivity.
    + eexists. vm_compute. reflexivity.
Qed.
