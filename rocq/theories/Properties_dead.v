(** * Property C75: a definition that nothing mentions makes no difference

    [unmentioned], [choosable], [defines], [same_context], [same_result]:
    Spec_dead.v.  The rules are those of Spec_lang.v (C67). *)

From Coq Require Import String List Ascii Bool Arith ZArith Permutation.
From Verif Require Import Text Utf8 Debug Res Ast Parser Env Scope State Numbers Spec_args Spec_print Spec_tree Spec_expand Spec_final Spec_keep Spec_loop Spec_order Spec_dead
  Proofs_text Proofs_print Proofs_ast Proofs_data Proofs_names Proofs_dead Conformance Runs Properties_macros Properties_lang Properties_final.
From Verif Require Import Args Expander Spec_lang.
Import ListNotations.

(** A program without the definition allows the same outcomes as the program
    with it, up to the definition itself. *)
Theorem c75_program : forall K E path text text' pre D post,
  choosable K E -> reads_text E -> dates_are_dates E -> unmentioned_in_files K E -> utf8 text -> utf8 text' ->
  parse (e_unescape E) 0 text = Ok (pre ++ D :: post) -> parse (e_unescape E) 0 text' = Ok (pre ++ post) ->
  defines K D -> Forall (unmentioned K) (pre ++ post) ->
  (forall r, program_means E path text r -> exists r', program_means E path text' r' /\ same_result K r r') /\
  (forall r, program_means E path text' r -> exists r', program_means E path text r' /\ same_result K r' r).
Proof. intros K E path text text' pre D post C T DD F U U' P P' D0 M. exact (programs_alike K E T F DD C path text text' pre D post U U' P P' D0 M). Qed.
Print Assumptions c75_program.

(** The same for nodes in any two contexts that differ in definitions of names
    in [K] only. *)
Theorem c75_nodes : forall K E ns c c' r,
  choosable K E -> reads_text E -> dates_are_dates E -> unmentioned_in_files K E ->
  Forall (unmentioned K) ns ->
  (forall k m, ~ K k -> get k (k_defs c) = Some m -> Forall (unmentioned K) (m_params m) /\ Forall (unmentioned K) (m_body m)) ->
  same_context K c c' -> means_all E ns c r -> exists r', means_all E ns c' r' /\ same_result K r r'.
Proof. intros K E ns c c' r C T DD F U G S H. exact (nodes_alike K E T F DD C ns c c' r U S G H). Qed.
Print Assumptions c75_nodes.

(** Of runs: what one ends with, one of the other program ends with. *)
Theorem c75_runs : forall K E path text text' pre D post f,
  choosable K E -> reads_text E -> dates_are_dates E -> unmentioned_in_files K E -> permuting E -> utf8 text -> utf8 text' ->
  parse (e_unescape E) 0 text = Ok (pre ++ D :: post) -> parse (e_unescape E) 0 text' = Ok (pre ++ post) ->
  defines K D -> Forall (unmentioned K) (pre ++ post) ->
  (expand E f path text <> OutOfFuel -> exists o f', permuting (with_order o E) /\
     same_result K (seen (expand E f path text)) (seen (expand (with_order o E) f' path text'))) /\
  (expand E f path text' <> OutOfFuel -> exists o f', permuting (with_order o E) /\
     same_result K (seen (expand (with_order o E) f' path text)) (seen (expand E f path text'))).
Proof.
  intros K E path text text' pre D post f C T DD F PM U U' P P' D0 M.
  destruct (c75_program K E path text text' pre D post C T DD F U U' P P' D0 M) as [A B].
  split; intros N.
  - apply (c67_sound E T PM f path text U) in N. destruct (A _ N) as [r' [H S]]. apply (c67_program E T path text' U') in H.
    destruct H as [o [r [PO [[N' [f' R]] SR]]]]. exists o, f'. split; [exact PO|]. rewrite (R f' (le_n _)), SR. exact S.
  - apply (c67_sound E T PM f path text' U') in N. destruct (B _ N) as [r' [H S]]. apply (c67_program E T path text U) in H.
    destruct H as [o [r [PO [[N' [f' R]] SR]]]]. exists o, f'. split; [exact PO|]. rewrite (R f' (le_n _)), SR. exact S.
Qed.
Print Assumptions c75_runs.

(** If no order of surplus keywords mattered, then every run of the program
    without the definition that ends gives the same nodes. *)
Theorem c75_unique : forall K E path text text' pre D post f ns s,
  choosable K E -> reads_text E -> dates_are_dates E -> unmentioned_in_files K E -> permuting E -> utf8 text -> utf8 text' ->
  parse (e_unescape E) 0 text = Ok (pre ++ D :: post) -> parse (e_unescape E) 0 text' = Ok (pre ++ post) ->
  defines K D -> Forall (unmentioned K) (pre ++ post) ->
  expand E f path text = Ok (ns, s) -> g_ordered (x_world s) = 0 ->
  forall f', expand E f' path text' <> OutOfFuel -> exists s', expand E f' path text' = Ok (ns, s') /\
    same_defs_but K (x_defs s) (x_defs s') /\ g_log (x_world s) = g_log (x_world s').
Proof.
  intros K E path text text' pre D post f ns s C T DD F PM U U' P P' D0 M R O f' N.
  destruct (c75_program K E path text text' pre D post C T DD F U U' P P' D0 M) as [_ B].
  pose proof (c67_sound E T PM f' path text' U' N) as H. destruct (B _ H) as [r' [H' S]].
  apply (c67_unique E f path text ns s T U PM R O) in H'. subst r'.
  destruct (expand E f' path text') as [[ns' s']| | | |]; cbn in S; inversion S as [? ? ? SC| | |]; subst.
  exists s'. split; [reflexivity|]. destruct SC as [X Y _]. split; assumption.
Qed.
Print Assumptions c75_unique.

(** ** Names *)

(** A single name will do if it is not that of a built-in macro or a lambda,
    true, false, and does not start with a digit. *)
Theorem c75_name : forall E k, dates_are_dates E -> ~ reserved k -> k <> b "true" -> k <> b "false" ->
  ~ starts_with_digit k -> starts_with (b "__lambda") k = false -> choosable (eq k) E.
Proof.
  intros E k D R TR FA S L. constructor.
  - intros j <-. exact R.
  - intros c st X. rewrite X in L. unfold lambda_name in L.
    assert (Q : forall t, starts_with (b "__lambda") (b "__lambda" ++ t) = true) by reflexivity. rewrite Q in L. discriminate.
  - auto.
  - intros text t H. apply D in H. revert H. apply Forall_impl. intros v V <-. contradiction.
Qed.
Print Assumptions c75_name.

(** All names with an ending: then %namespace may be used as well, since the
    names that it makes have the ending too. *)
Definition ending (k v : bytes) : Prop := exists p, v = p ++ k.
Theorem c75_ending : forall E k x, digit x = None ->
  (forall name, reserved name \/ In name [b "true"; b "false"] -> ~ ending (k ++ [x]) name) ->
  (forall text t, e_toml E text = Some t -> Forall (fun v => ~ ending (k ++ [x]) v) (toml_dates (TomlTable t))) ->
  choosable (ending (k ++ [x])) E /\
  forall v, roundabout (ending (k ++ [x])) v <-> In v [b "symbol"; b "%symbol"; b "ifdef"].
Proof.
  intros E k x X N D. split; [constructor|].
  - intros j J R. exact (N _ (or_introl R) J).
  - intros c st [p Q]. unfold lambda_name in Q. rewrite !app_assoc in Q.
    assert (L : exists d t, show_nat (s_off st) = t ++ [d]).
    { destruct (show_nat (s_off st)) as [|d t] eqn:Z using rev_ind.
      - exfalso. pose proof (Proofs_get.digits_show_nat (s_off st)) as Y. rewrite Z in Y. discriminate Y.
      - eexists _, _. reflexivity. }
    destruct L as [d [t L]]. rewrite L in Q. rewrite !app_assoc in Q. apply app_inj_tail in Q as [_ Q]. subst d.
    apply (show_nat_digits (s_off st) x); [|exact X]. rewrite L. apply in_or_app. right. left. reflexivity.
  - split; apply N; right; cbn; auto.
  - exact D.
  - intros v. unfold roundabout. cbn [In]. split.
    + intros [H|[H|[H|[_ [p [j [[q ->] Z]]]]]]]; subst; auto. exfalso. apply Z. exists (p ++ q). apply app_assoc.
    + intros [H|[H|[H|[]]]]; subst; auto.
Qed.
Print Assumptions c75_ending.

(** ** Tests *)

Fixpoint asksb (k : bytes) (n : node) : bool :=
  match n with
  | Lst ns _ _ _ _ =>
      match ns with
      | Sym a :: cond :: _ => beq (a_val a) (b "%ifdef") && match atomic cond with Some x => beq (a_val x) k | None => false end
      | _ => false
      end || existsb (asksb k) ns
  | Attr _ v _ _ => asksb k v
  | _ => false
  end.
Lemma asksb_ok k n : asks k n -> asksb k n = true.
Proof.
  induction 1 as [a cond x rest st ew es w A C X|n ns st ew es w I H IH|key v st w H IH]; cbn [asksb].
  - rewrite A, C, X, !beq_refl. reflexivity.
  - apply orb_true_iff. right. apply existsb_exists. exists n. auto.
  - exact IH.
Qed.
Definition plainly (k : bytes) (n : node) : Prop :=
  ~ In k (symbols n) /\ ~ In (b "%" ++ k) (symbols n) /\ ~ asks k n.
Definition lacks (l : list bytes) (n : node) : bool := forallb (fun v => negb (existsb (beq v) l)) (symbols n).
Lemma lacks_ok l n v : lacks l n = true -> In v l -> ~ In v (symbols n).
Proof.
  unfold lacks. rewrite forallb_forall. intros H I J. apply H in J. apply negb_true_iff in J.
  assert (X : existsb (beq v) l = true) by (apply existsb_exists; exists v; split; [exact I|apply beq_refl]). rewrite X in J. discriminate.
Qed.
Lemma plainly_by k n : lacks [k; b "%" ++ k] n && negb (asksb k n) = true -> plainly k n.
Proof.
  intros H. apply andb_prop in H as [A B]. split; [|split].
  - apply (lacks_ok _ _ _ A). left. reflexivity.
  - apply (lacks_ok _ _ _ A). right. left. reflexivity.
  - intros Q. apply asksb_ok in Q. rewrite Q in B. discriminate.
Qed.
Definition roundabouts : list bytes := [b "symbol"; b "%symbol"; b "ifdef"; b "namespace"; b "%namespace"].
Lemma unmentioned_by k n : lacks ([k; b "%" ++ k] ++ roundabouts) n && negb (asksb k n) = true -> unmentioned (eq k) n.
Proof.
  intros H. apply andb_prop in H as [A B]. constructor.
  - intros j <-. split; apply (lacks_ok _ _ _ A); cbn; auto.
  - intros j <- Q. apply asksb_ok in Q. rewrite Q in B. discriminate.
  - intros v R. apply (lacks_ok _ _ _ A). apply in_or_app. right. unfold roundabout in R. cbn. intuition subst; auto.
Qed.

(** ** What one must not do *)

(** A definition, and the same commented out. *)
Definition c75_definition := b "(%define (dead) ""x"")
".
Definition c75_comment := b ";%define (dead) ""x"")
".
(** Programs that get at the definition in a roundabout way. *)
Definition c75_rest : list bytes :=
  [b "(%apply (%symbol ""dead""))"; b "(%apply ifdef (%concat ""de"" ""ad"") yes no)"; b "(%namespace lib) (%lib/dead)"].
Lemma same_nodes K r r' : same_result K r r' -> rmap fst r = rmap fst r'.
Proof. intros []; reflexivity. Qed.
Theorem c75_roundabout_refuted : Forall (fun rest => exists D post,
  parse (e_unescape env1) 0 (c75_definition ++ rest) = Ok (D :: post) /\ parse (e_unescape env1) 0 (c75_comment ++ rest) = Ok post /\
  defines (eq (b "dead")) D /\ Forall (plainly (b "dead")) post /\
  ~ same_result (eq (b "dead")) (seen (expand env1 30 [] (c75_definition ++ rest))) (seen (expand env1 30 [] (c75_comment ++ rest))))
  c75_rest.
Proof.
  repeat constructor; eexists _, _; (split; [vm_compute; reflexivity|]); (split; [vm_compute; reflexivity|]);
    (split; [apply defines_macro; [reflexivity|reflexivity|split; apply Nat.leb_le; vm_compute; reflexivity]|]);
    (split; [repeat constructor; apply plainly_by; vm_compute; reflexivity|]);
    intros S; apply same_nodes in S; vm_compute in S; discriminate S.
Qed.
Print Assumptions c75_roundabout_refuted.

(** ** Examples *)

(** A program with a macro that it does not use, in the environment of C72, of
    which it includes the file; and the same with the macro commented out. *)
Definition c75_text := b "(%include lib) (%define word hey)
(%define (dead y) (%log %y) (%dead %y))
(p :class %word (%bold ""%x"") (%ifdef word yes no))".
Definition c75_without := b "(%include lib) (%define word hey)
;%define (dead y) (%log %y) (%dead %y))
(p :class %word (%bold ""%x"") (%ifdef word yes no))".
Definition c75_result := b "
(p :class hey (%raw ""<b> %x </b>"") yes)".

Example c75_conditions : exists pre D post, let K := eq (b "dead") in
  choosable K c72_env /\ unmentioned_in_files K c72_env /\ utf8 c75_text /\ utf8 c75_without /\
  parse (e_unescape c72_env) 0 c75_text = Ok (pre ++ D :: post) /\ parse (e_unescape c72_env) 0 c75_without = Ok (pre ++ post) /\
  defines K D /\ Forall (unmentioned K) (pre ++ post) /\ length pre = 2.
Proof.
  destruct c72_conditions as [_ [_ [_ [_ [DD _]]]]].
  destruct (parse ref_unescape 0 c75_text) as [[|n1 [|n2 [|D post]]]| | | |] eqn:P; try (vm_compute in P; discriminate P).
  assert (P' : parse ref_unescape 0 c75_without = Ok ([n1; n2] ++ post)).
  { apply (f_equal (fun r => match r with Ok (n1 :: n2 :: _ :: post) => Ok (n1 :: n2 :: post) | _ => r end)) in P. cbv beta iota in P.
    cbn [app]. rewrite <- P. vm_compute. reflexivity. }
  exists [n1; n2], D, post. cbv zeta. split; [|split; [|split; [|split; [|split; [|split; [|split; [|split]]]]]]].
  - apply c75_name; [exact DD| |discriminate|discriminate| |reflexivity].
    + vm_compute. intuition discriminate.
    + intros [_ H]. apply Nat.leb_le in H. vm_compute in H. discriminate H.
  - intros p t id tree. cbn [e_read e_unescape c72_env]. destruct (beq p _); [|discriminate]. intros H. injection H as <-. intros Q.
    apply (f_equal (fun r => match r with Ok t => t | _ => [] end)) in Q. cbv beta iota in Q. subst tree.
    apply Forall_forall. intros n I. apply unmentioned_by. revert n I. apply forallb_forall. vm_compute. reflexivity.
  - apply is_utf8. vm_compute. reflexivity.
  - apply is_utf8. vm_compute. reflexivity.
  - exact P.
  - exact P'.
  - apply (f_equal (fun r => match r with Ok (_ :: _ :: D :: _) => D | _ => n1 end)) in P. cbv beta iota in P. rewrite <- P.
    vm_compute. apply defines_macro; [reflexivity|reflexivity|split; apply Nat.leb_le; vm_compute; reflexivity].
  - apply Forall_forall. intros n I. apply unmentioned_by. revert n I. apply forallb_forall.
    apply (f_equal (fun r => match r with Ok t => t | _ => [] end)) in P'. cbv beta iota in P'. rewrite <- P'. vm_compute. reflexivity.
  - reflexivity.
Qed.
Example c75_example : exists ns s, expand c72_env 30 [] c75_text = Ok (ns, s) /\
  Format.sexp_gen (fun _ => true) ns = c75_result /\ get (b "dead") (x_defs s) <> None /\
  forall f', expand c72_env f' [] c75_without <> OutOfFuel -> exists s', expand c72_env f' [] c75_without = Ok (ns, s').
Proof.
  destruct c72_conditions as [T [PM [_ [_ [DD _]]]]]. destruct c75_conditions as [pre [D [post [C [F [U [U' [P [P' [D0 [M _]]]]]]]]]]].
  assert (X : match expand c72_env 30 [] c75_text with
              | Ok (ns, s) => Format.sexp_gen (fun _ => true) ns = c75_result /\ get (b "dead") (x_defs s) <> None /\ g_ordered (x_world s) = 0
              | _ => False end).
  { vm_compute. split; [reflexivity|]. split; [discriminate|reflexivity]. }
  destruct (expand c72_env 30 [] c75_text) as [[ns s]| | | |] eqn:R; try contradiction. destruct X as [G [L O]].
  exists ns, s. split; [reflexivity|]. split; [exact G|]. split; [exact L|]. intros f' N.
  destruct (c75_unique (eq (b "dead")) c72_env [] c75_text c75_without pre D post 30 ns s C T DD F PM U U' P P' D0 M R O f' N) as [s' [H _]].
  exists s'. exact H.
Qed.

(** With %namespace: names that end in -dead. *)
Example c75_ending_example : choosable (ending (b "-dead")) c72_env /\
  Forall (unmentioned (ending (b "-dead")))
    (match parse ref_unescape 0 (b "(%namespace lib (%define (f x) %x)) (%lib/f 1)") with Ok t => t | _ => [] end).
Proof.
  assert (EN : forall v, ending (b "-dead") v -> starts_with (b "daed-") (rev v) = true).
  { intros v [p ->]. rewrite rev_app_distr. apply starts_with_iff. eexists. reflexivity. }
  destruct (c75_ending c72_env (b "-dea") "d"%char eq_refl) as [C R].
  - intros name H Q. apply EN in Q.
    assert (F : forallb (fun v => negb (starts_with (b "daed-") (rev v))) (map fst builtins ++ [b "true"; b "false"]) = true) by (vm_compute; reflexivity).
    rewrite forallb_forall in F. specialize (F name (in_or_app _ _ _ H)). rewrite Q in F. discriminate F.
  - intros t l. cbn [e_toml c72_env]. destruct (beq t _); intros H; injection H as <-;
      repeat constructor; intros Q; apply EN in Q; vm_compute in Q; discriminate Q.
  - split; [exact C|]. apply Forall_forall. intros n I.
    assert (F : forallb (fun n => lacks [b "symbol"; b "%symbol"; b "ifdef"] n && forallb (fun v => negb (starts_with (b "daed-") (rev v))) (symbols n)
                   && negb (existsb (beq (b "%ifdef")) (symbols n)))
      (match parse ref_unescape 0 (b "(%namespace lib (%define (f x) %x)) (%lib/f 1)") with Ok t => t | _ => [] end) = true) by (vm_compute; reflexivity).
    rewrite forallb_forall in F. apply F in I. apply andb_prop in I as [I A]. apply andb_prop in I as [I J]. rewrite forallb_forall in J.
    constructor.
    + intros k [p ->]. split; intros Q; apply J in Q; rewrite EN in Q; try discriminate Q;
        [exists p; reflexivity|exists (b "%" ++ p); rewrite app_assoc; reflexivity].
    + intros k _ Q. apply asks_symbol in Q. apply negb_true_iff in A.
      assert (X : existsb (beq (b "%ifdef")) (symbols n) = true) by (apply existsb_exists; exists (b "%ifdef"); split; [exact Q|apply beq_refl]).
      rewrite X in A. discriminate.
    + intros v V. apply R in V. exact (lacks_ok _ _ _ I V).
Qed.
