(** * Property C76: definitions can be moved

    [unrelated], [rearranged], [definitions]: Spec_swap.v; [defines],
    [choosable]: Spec_dead.v; [alike], [lambda_free]: Spec_moved.v.  The rules
    are those of Spec_lang.v (C67). *)

From Coq Require Import String List Ascii Bool Arith ZArith Permutation.
From Verif Require Import Text Utf8 Debug Res Ast Parser Env Scope State Numbers Spec_args Spec_print Spec_tree Spec_expand Spec_final Spec_keep Spec_loop Spec_order Spec_power Spec_dead Spec_moved Spec_swap
  Proofs_text Proofs_print Proofs_ast Proofs_data Proofs_names Proofs_run Proofs_order Proofs_swap Conformance Runs Properties_macros Properties_lang Properties_final Properties_moved Properties_power Properties_dead.
From Verif Require Proofs_place.
From Verif Require Import Args Expander Spec_lang.
Import ListNotations.

(** Moved past nodes that have nothing to do with it, a definition leaves
    every outcome exactly as it was: nodes, definitions, log and files. *)
Theorem c76_nodes : forall E k ns ns' c r,
  choosable (eq k) E -> reads_text E -> dates_are_dates E -> unrelated_files k E ->
  rearranged k ns ns' -> unrelated_defs k (k_defs c) -> k_files c <> [] ->
  means_all E ns c r <-> means_all E ns' c r.
Proof. intros E k ns ns' c r C T DD F R U N. exact (rearranged_same k E T F DD C ns ns' c r R U N). Qed.
Print Assumptions c76_nodes.

(** Definitions of different names can be written in any order, whatever is in
    them and around them. *)
Theorem c76_order : forall E pre ds ds' post names c r, Permutation ds ds' -> definitions ds names ->
  means_all E (pre ++ ds ++ post) c r <-> means_all E (pre ++ ds' ++ post) c r.
Proof. intros E pre ds ds' post names c r P D. exact (block_order E pre post ds ds' names P D c r). Qed.
Print Assumptions c76_order.

(** ** Programs *)

Lemma alike_seen R r r1 r2 : seen r1 = seen r2 -> alike_outcome R r r1 -> alike_outcome R r r2.
Proof.
  intros Q H. revert Q. destruct H as [ns ns' s s' A D L|k st st' M|p| |]; intros Q; destruct r2 as [[ns2 s2]| | | |]; cbn in Q; try discriminate Q; try constructor.
  - assert (X : ns' = ns2) by congruence. subst. exact A.
  - assert (X : x_defs s' = x_defs s2) by (unfold visible in Q; congruence). rewrite <- X. exact D.
  - assert (X : g_log (x_world s') = g_log (x_world s2)) by (unfold visible in Q; congruence). rewrite <- X. exact L.
  - injection Q as <-. constructor. exact M.
  - injection Q as <-. constructor.
Qed.
Lemma rearranged_text R E path text text' tree tree' other f :
  reads_text E -> permuting E -> utf8 text' ->
  parse (e_unescape E) 0 text = Ok tree -> parse (e_unescape E) 0 text' = Ok tree' -> Forall2 (alike R) tree other ->
  (forall r, means_all E other (Context no_defs [] [(path, text')]) r -> means_all E tree' (Context no_defs [] [(path, text')]) r) ->
  lambda_free E f tree (initial path text) -> expand E f path text <> OutOfFuel ->
  exists r, program_means E path text' (seen r) /\ alike_outcome R (expand E f path text) r.
Proof.
  intros T PM U' P P' A X L N.
  assert (Q : expand E f path text = expand_nodes E f tree (initial path text)) by (unfold expand; rewrite P; reflexivity).
  rewrite Q in N |- *.
  pose proof (c71_expansion R E f tree other path text text' PM T A L) as AO.
  exists (expand_nodes E f other (initial path text')). split; [|exact AO].
  eapply program_tree; [apply Proofs_place.syntax_iff; [exact U'|exact P']|]. apply X.
  apply (c67_nodes E T other (initial path text')). exists (e_order E), (expand_nodes E f other (initial path text')).
  rewrite with_own_order. split; [exact PM|]. split; [|reflexivity]. apply (settles_at (fun f => expand_nodes E f other (initial path text'))); [apply growing_nodes|].
  intros Z. rewrite Z in AO. inversion AO. congruence.
Qed.

(** The programs [text] and [text'], which have the same nodes, except that a
    definition has been moved: they differ in the positions of nodes.  What a
    run of the first ends with, some run of the second ends with, but for
    positions, if it makes no lambda, whose name would contain one. *)
Theorem c76_runs : forall R E k path text text' tree tree' other f,
  choosable (eq k) E -> reads_text E -> dates_are_dates E -> unrelated_files k E -> permuting E -> utf8 text' ->
  parse (e_unescape E) 0 text = Ok tree -> parse (e_unescape E) 0 text' = Ok tree' ->
  Forall2 (alike R) tree other -> rearranged k other tree' ->
  lambda_free E f tree (initial path text) -> expand E f path text <> OutOfFuel ->
  exists o f', permuting (with_order o E) /\
    alike_outcome R (expand E f path text) (expand (with_order o E) f' path text').
Proof.
  intros R E k path text text' tree tree' other f C T DD F PM U' P P' A RA L N.
  destruct (rearranged_text R E path text text' tree tree' other f T PM U' P P' A) as [r [H AO]]; [|exact L|exact N|].
  - intros r. apply (c76_nodes E k other tree' _ r C T DD F RA); [|discriminate]. intros j m _ Q. cbn in Q. rewrite get_no_defs in Q. discriminate.
  - apply (c67_program E T path text' U') in H. destruct H as [o [r' [PO [[N' [f' RR]] SR]]]]. exists o, f'. split; [exact PO|].
    rewrite (RR f' (le_n _)). exact (alike_seen _ _ _ _ (eq_sym SR) AO).
Qed.
Print Assumptions c76_runs.

(** If no order of surplus keywords mattered, all runs of both that end, end
    alike. *)
Theorem c76_unique : forall R E k path text text' tree tree' other f f' ns s,
  choosable (eq k) E -> reads_text E -> dates_are_dates E -> unrelated_files k E -> permuting E -> utf8 text' ->
  parse (e_unescape E) 0 text = Ok tree -> parse (e_unescape E) 0 text' = Ok tree' ->
  Forall2 (alike R) tree other -> rearranged k other tree' ->
  lambda_free E f tree (initial path text) -> expand E f path text <> OutOfFuel ->
  expand E f' path text' = Ok (ns, s) -> g_ordered (x_world s) = 0 ->
  alike_outcome R (expand E f path text) (Ok (ns, s)).
Proof.
  intros R E k path text text' tree tree' other f f' ns s C T DD F PM U' P P' A RA L N X O.
  destruct (rearranged_text R E path text text' tree tree' other f T PM U' P P' A) as [r [H AO]]; [|exact L|exact N|].
  - intros r. apply (c76_nodes E k other tree' _ r C T DD F RA); [|discriminate]. intros j m _ Q. cbn in Q. rewrite get_no_defs in Q. discriminate.
  - apply (c67_unique E f' path text' ns s T U' PM X O) in H. refine (alike_seen _ _ _ _ _ AO). exact H.
Qed.
Print Assumptions c76_unique.

(** The same for a permuted block of definitions. *)
Theorem c76_order_runs : forall R E path text text' tree pre ds ds' post names f,
  reads_text E -> permuting E -> utf8 text' ->
  parse (e_unescape E) 0 text = Ok tree -> parse (e_unescape E) 0 text' = Ok (pre ++ ds' ++ post) ->
  Forall2 (alike R) tree (pre ++ ds ++ post) -> Permutation ds ds' -> definitions ds names ->
  lambda_free E f tree (initial path text) -> expand E f path text <> OutOfFuel ->
  exists o f', permuting (with_order o E) /\
    alike_outcome R (expand E f path text) (expand (with_order o E) f' path text').
Proof.
  intros R E path text text' tree pre ds ds' post names f T PM U' P P' A PE DE L N.
  destruct (rearranged_text R E path text text' tree _ _ f T PM U' P P' A) as [r [H AO]]; [|exact L|exact N|].
  - intros r. apply (c76_order E pre ds ds' post names _ r PE DE).
  - apply (c67_program E T path text' U') in H. destruct H as [o [r' [PO [[N' [f' RR]] SR]]]]. exists o, f'. split; [exact PO|].
    rewrite (RR f' (le_n _)). exact (alike_seen _ _ _ _ (eq_sym SR) AO).
Qed.
Print Assumptions c76_order_runs.

(** ** What one must not do *)

(** A definition cannot be moved past an import of data that happens to define
    the same name, nor past a %namespace, which copies definitions, though
    neither mentions the name. *)
Definition c76_docs : env := docs [] [(b "file", [(b "dead", TomlInt 2)])] [] [].
Definition c76_definition := b "(%define dead ""1"") ".
Definition c76_rest : list (bytes * bytes) :=
  [(b "(%toml ""file"")", b "%dead"); (b "(%namespace lib)", b "%lib/dead")].
Theorem c76_roundabout_refuted : Forall (fun '(past, use) => exists D ns post,
  parse (e_unescape c76_docs) 0 (c76_definition ++ past ++ b " " ++ use) = Ok (D :: ns ++ post) /\
  defines (eq (b "dead")) D /\ ns <> [] /\ Forall (plainly (b "dead")) ns /\
  rmap fst (expand_nodes c76_docs 30 (D :: ns ++ post) (initial [] [])) <>
  rmap fst (expand_nodes c76_docs 30 (ns ++ D :: post) (initial [] []))) c76_rest.
Proof.
  repeat constructor.
  all: match goal with |- exists D ns post, parse ?u ?i ?t = _ /\ _ =>
    destruct (parse u i t) as [[|D [|n [|p []]]]| | | |] eqn:P; try (vm_compute in P; discriminate P) end.
  all: exists D, [n], [p]; split; [reflexivity|].
  all: vm_compute in P; injection P as <- <- <-.
  all: split; [eapply defines_value; [reflexivity|reflexivity|reflexivity|reflexivity]|]; split; [discriminate|].
  all: split; [repeat constructor; apply plainly_by; vm_compute; reflexivity|].
  all: vm_compute; discriminate.
Qed.
Print Assumptions c76_roundabout_refuted.

(** ** Examples *)

Lemma unrelated_by k ns :
  forallb (fun n => (lacks ([k; b "%" ++ k] ++ roundabouts) n && negb (asksb k n)) && withoutb importing n) ns = true ->
  Forall (unrelated k) ns.
Proof.
  intros H. apply Forall_forall. intros n I. rewrite forallb_forall in H. apply H in I. apply andb_prop in I as [A B].
  split; [apply unmentioned_by, A|]. assert (X : Forall (without importing) [n]) by (apply withoutb_ok; cbn [forallb]; rewrite B; reflexivity).
  inversion X; assumption.
Qed.

(** The definition of a macro is moved past a heading, an included file and
    another definition.  After it, anything goes. *)
Definition c76_text := b "
(%define (greet who) (p :class top Hello %who))
(h1 Title)
(%include lib)
(%define who (%bold world))
(%greet %who) (%ifdef greet yes no)".
Definition c76_text' := b "
(h1 Title)
(%include lib)
(%define who (%bold world))
(%define (greet who) (p :class top Hello %who))
(%greet %who) (%ifdef greet yes no)".
Definition c76_tree (t : bytes) : list node := match parse ref_unescape 0 t with Ok tree => tree | _ => [] end.
Definition anywhere (st st' : site) : Prop := True.
Definition c76_other : list node :=
  match c76_tree c76_text' with h :: i :: w :: D :: post => D :: h :: i :: w :: post | t => t end.

Example c76_conditions : choosable (eq (b "greet")) c72_env /\ unrelated_files (b "greet") c72_env /\
  parse (e_unescape c72_env) 0 c76_text = Ok (c76_tree c76_text) /\ parse (e_unescape c72_env) 0 c76_text' = Ok (c76_tree c76_text') /\
  Forall2 (alike anywhere) (c76_tree c76_text) c76_other /\ rearranged (b "greet") c76_other (c76_tree c76_text') /\
  lambda_free c72_env 30 (c76_tree c76_text) (initial [] c76_text) /\ utf8 c76_text'.
Proof.
  destruct c72_conditions as [_ [_ [_ [_ [DD _]]]]].
  split; [|split; [|split; [|split; [|split; [|split; [|split]]]]]].
  - apply c75_name; [exact DD| |discriminate|discriminate| |reflexivity].
    + vm_compute. intuition discriminate.
    + intros [_ H]. apply Nat.leb_le in H. vm_compute in H. discriminate H.
  - intros p t id tree. cbn [e_read e_unescape c72_env]. destruct (beq p _); [|discriminate]. intros H. injection H as <-. intros Q.
    apply (f_equal (fun r => match r with Ok t => t | _ => [] end)) in Q. cbv beta iota in Q. subst tree.
    apply unrelated_by. vm_compute. reflexivity.
  - vm_compute. reflexivity.
  - vm_compute. reflexivity.
  - vm_compute. repeat constructor.
  - unfold c76_other. destruct (c76_tree c76_text') as [|h [|i [|w [|D post]]]] eqn:Q; try (vm_compute in Q; discriminate Q).
    apply (moved_later (b "greet") [] D [h; i; w] post); [constructor| |].
    + apply (f_equal (fun t => nth 3 t h)) in Q. cbn [nth] in Q. rewrite <- Q. vm_compute.
      apply defines_macro; [reflexivity|reflexivity|split; apply Nat.leb_le; vm_compute; reflexivity].
    + apply (f_equal (firstn 3)) in Q. cbn [firstn] in Q. rewrite <- Q. apply unrelated_by. vm_compute. reflexivity.
  - apply c71_lambda_free. vm_compute. discriminate.
  - apply is_utf8. vm_compute. reflexivity.
Qed.
Example c76_example : exists ns s,
  expand c72_env 30 [] c76_text' = Ok (ns, s) /\ alike_outcome anywhere (expand c72_env 30 [] c76_text) (Ok (ns, s)) /\
  Format.sexp_gen (fun _ => true) ns = b "
(h1 Title) (p :class top Hello (%raw ""<b> world </b>"")) yes".
Proof.
  destruct c72_conditions as [T [PM [_ [_ [DD _]]]]]. destruct c76_conditions as [C [F [P [P' [A [RA [L U]]]]]]].
  assert (X : match expand c72_env 30 [] c76_text' with
              | Ok (ns, s) => Format.sexp_gen (fun _ => true) ns = b "
(h1 Title) (p :class top Hello (%raw ""<b> world </b>"")) yes" /\ g_ordered (x_world s) = 0
              | _ => False end) by (vm_compute; split; reflexivity).
  destruct (expand c72_env 30 [] c76_text') as [[ns s]| | | |] eqn:R; try contradiction. destruct X as [G O].
  exists ns, s. split; [reflexivity|]. split; [|exact G].
  refine (c76_unique anywhere c72_env (b "greet") [] c76_text c76_text' _ _ _ 30 30 ns s C T DD F PM U P P' A RA L _ R O).
  vm_compute. discriminate.
Qed.

(** Three definitions, of which one uses another, in another order. *)
Definition c76_block := b "
(%define (twice x) (%once %x) (%once %x))
(%define (once x) (p %x %sign))
(%define sign ""!"")
(%twice Hey)".
Definition c76_block' := b "
(%define sign ""!"")
(%define (once x) (p %x %sign))
(%define (twice x) (%once %x) (%once %x))
(%twice Hey)".
Example c76_order_example : exists pre ds ds' post, c76_tree c76_block' = pre ++ ds' ++ post /\
  Forall2 (alike anywhere) (c76_tree c76_block) (pre ++ ds ++ post) /\ Permutation ds ds' /\
  definitions ds [b "twice"; b "once"; b "sign"] /\ lambda_free c72_env 30 (c76_tree c76_block) (initial [] c76_block) /\
  shown_as (expand c72_env 30 [] c76_block) = shown_as (expand c72_env 30 [] c76_block') /\
  shown_as (expand c72_env 30 [] c76_block) = Ok (b " (p Hey ""!"") (p Hey ""!"")").
Proof.
  destruct (c76_tree c76_block') as [|D1 [|D2 [|D3 post]]] eqn:Q; try (vm_compute in Q; discriminate Q).
  exists [], [D3; D2; D1], [D1; D2; D3], post.
  split; [reflexivity|]. split; [|split; [|split; [|split; [|split]]]].
  - vm_compute in Q. injection Q as <- <- <- <-. vm_compute. repeat constructor.
  - exact (Permutation_sym (Permutation_rev [D1; D2; D3])).
  - vm_compute in Q. injection Q as <- <- <- _. split.
    + constructor; [|constructor; [|constructor; [|constructor]]].
      * apply defines_macro; [reflexivity|reflexivity|split; apply Nat.leb_le; vm_compute; reflexivity].
      * apply defines_macro; [reflexivity|reflexivity|split; apply Nat.leb_le; vm_compute; reflexivity].
      * eapply defines_value; reflexivity.
    + repeat constructor; vm_compute; intuition discriminate.
  - apply c71_lambda_free. vm_compute. discriminate.
  - vm_compute. reflexivity.
  - vm_compute. reflexivity.
Qed.
