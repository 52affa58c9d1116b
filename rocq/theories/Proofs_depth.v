(** * Proof of C79: the depth of recursion *)

From Coq Require Import String List Ascii Bool Arith Lia.
From Verif Require Import Text Utf8 Res Ast Env Scope State Parser Args Bind Expander
  Spec_grammar Spec_tree Spec_expand Spec_machine Spec_depth Proofs_text Proofs_ast Proofs_parser Proofs_comments Proofs_eval Proofs_machine.
Import ListNotations.

Section Depth.
Variable E : env.
Notation ex f := (fun n s => run E f (TNode n) s).

Definition exact_depth (n : node) : Prop := macro_free n -> forall f s,
  (depth n <= f -> exists s', run E f (TNode n) s = Ok ([n], s') /\ same_but_vec s s') /\ (f < depth n -> run E f (TNode n) s = OutOfFuel).
Lemma exact_list ns : Forall exact_depth ns -> Forall macro_free ns -> forall f s,
  (depths ns <= f -> exists s', exs (ex f) ns s = Ok (ns, s') /\ same_but_vec s s') /\ (f < depths ns -> exs (ex f) ns s = OutOfFuel).
Proof.
  induction 1 as [|n ns D F IH]; intros M f s; cbn [depths fold_right].
  - split; [|lia]. intros _. exists s. split; [reflexivity|apply same_refl].
  - fold (depths ns). inversion M as [|? ? M1 M2]; subst. destruct (D M1 f s) as [A B]. split; intros L.
    + destruct A as [s1 [A S1]]; [lia|]. destruct (IH M2 f s1) as [C _]. destruct C as [s2 [C S2]]; [lia|].
      exists s2. cbn [exs]. rewrite A. cbn [bind]. rewrite C. split; [reflexivity|eapply same_trans; eauto].
    + cbn [exs]. destruct (le_lt_dec (depth n) f) as [K|K]; [|rewrite (B K); reflexivity].
      destruct (A K) as [s1 [A' _]]. rewrite A'. cbn [bind]. destruct (IH M2 f s1) as [_ C]. rewrite C by lia. reflexivity.
Qed.
Lemma exact_node n : exact_depth n.
Proof.
  induction n as [a|a|a|a|ns st ew es w IH|k v st w IH] using node_ind'; intros M [|f] s; cbn [depth].
  1-12: try (split; [lia|reflexivity]).
  1-4: split; [intros _; exists s; split; [|apply same_refl]; rewrite run_node; cbn [expand_one]; try reflexivity|lia].
  - inversion M as [|? ? A _]; subst. rewrite A. reflexivity.
  - fold (depths ns). apply macro_free_list in M. destruct ns as [|h t].
    + split; [|cbn; lia]. intros _. exists s. split; [reflexivity|apply same_refl].
    + assert (P : forall s0, (depths (h :: t) <= f -> exists s', bind (exs (ex f) (h :: t) s0) (fun '(ns, s1) => Ok ([Lst ns st ew es w], s1)) =
          Ok ([Lst (h :: t) st ew es w], s') /\ same_but_vec s0 s') /\
        (f < depths (h :: t) -> bind (exs (ex f) (h :: t) s0) (fun '(ns, s1) => Ok ([Lst ns st ew es w], s1)) = OutOfFuel)).
      { intros s0. destruct (exact_list _ IH M f s0) as [A B]. split; intros L.
        - destruct (A L) as [s' [Q S]]. exists s'. rewrite Q. split; [reflexivity|exact S].
        - rewrite (B L). reflexivity. }
      rewrite run_node. cbn [expand_one]. destruct (symbol h) as [a|] eqn:Hs.
      * destruct h; try discriminate. cbn in Hs. inversion Hs; subst.
        assert (A : starts_with (b "%") (a_val a) = false) by (inversion M as [|? ? X _]; subst; inversion X; subst; assumption).
        unfold register. rewrite A. cbv beta iota. match goal with |- context [exs _ _ ?t] => destruct (P t) as [X Y] end.
        split; intros L; [destruct (X ltac:(lia)) as [s' [Q S]]; exists s'; split; [exact Q|exact S]|apply Y; lia].
      * destruct (P s) as [X Y]. split; intros L; [apply X; lia|apply Y; lia].
  - rewrite run_node. cbn [expand_one]. destruct (IH M f s) as [A B]. split; intros L.
    + destruct (A ltac:(lia)) as [s' [Q S]]. exists s'. rewrite Q. split; [reflexivity|exact S].
    + rewrite (B ltac:(lia)). reflexivity.
Qed.
Lemma exact_nodes ns : Forall macro_free ns -> forall f s,
  (depths ns <= f -> exists s', expand_nodes E f ns s = Ok (ns, s') /\ same_but_vec s s') /\ (f < depths ns -> expand_nodes E f ns s = OutOfFuel).
Proof. intros M. apply exact_list; [|exact M]. apply List.Forall_forall. intros n _. apply exact_node. Qed.

Lemma variable_depth name st w s ns f : get name (x_defs s) = Some (variable ns) -> Forall macro_free ns ->
  (depths ns < f -> exists s', run E f (TNode (Sym (Atom (b "%" ++ name) st w))) s = Ok (set_first_ws w ns, s') /\ same_but_vec s s') /\
  (f <= depths ns -> run E f (TNode (Sym (Atom (b "%" ++ name) st w))) s = OutOfFuel).
Proof.
  intros G M. destruct f as [|f]; [split; [lia|reflexivity]|]. destruct (exact_nodes ns M f s) as [A B]. rewrite run_node. cbn [expand_one a_val].
  change (starts_with (b "%") (b "%" ++ name)) with true. change (skipn 1 (b "%" ++ name)) with name. cbv iota. rewrite G. cbn [m_params m_body variable a_ws].
  change (exs (ex f) ns s) with (expand_nodes E f ns s). split; intros L.
  - destruct (A ltac:(lia)) as [s' [Q S]]. exists s'. rewrite Q. split; [reflexivity|exact S].
  - rewrite B by lia. reflexivity.
Qed.
End Depth.

Lemma tower_depth n : forall e, shape e = tower n -> macro_free e /\ depth e = S n.
Proof.
  induction n as [|n IH]; intros e H; cbn [tower] in H; apply shape_list in H as [ns [st [ew [es [w [-> H]]]]]].
  - apply shape_nil in H as ->. split; [constructor|reflexivity].
  - apply shape_cons in H as [x [r [-> [X H]]]]. apply shape_nil in H as ->. destruct (IH x X) as [A B]. split.
    + apply macro_free_list. constructor; [exact A|constructor].
    + cbn [depth fold_right]. rewrite B. lia.
Qed.
Lemma nested_parse un n : utf8 (nested (S n)) /\ exists e, parse un 0 (nested (S n)) = Ok [e] /\ macro_free e /\ depth e = S n.
Proof.
  change (nested (S n)) with (number_text n). rewrite <- tower_text.
  assert (U : utf8 (stext (tower n))) by apply words_utf8, tower_words. split; [exact U|].
  destruct (reads_program un [] (tower n)) as [es [A P]]; [constructor|..].
  - constructor; [|constructor]. destruct n; eexists; reflexivity.
  - apply tower_words.
  - apply (parse_grammar un 0 _ _ U) in P as [tree [Q S]].
    assert (T : map shape tree = [] ++ [tower n]) by (rewrite <- A, <- S; symmetry; apply sshape_strips). cbn [List.app] in T.
    apply shape_cons in T as [e [r [-> [T R]]]]. apply shape_nil in R as ->. exists e. split; [exact Q|apply tower_depth, T].
Qed.
Lemma nested_run E path n f : (n < f -> exists ns s, expand E f path (nested (S n)) = Ok (ns, s)) /\
  (f <= n -> expand E f path (nested (S n)) = OutOfFuel).
Proof.
  destruct (nested_parse (e_unescape E) n) as [_ [e [P [M D]]]]. unfold expand. rewrite P. cbn [bind].
  destruct (exact_nodes E [e] (List.Forall_cons _ _ _ M (List.Forall_nil _)) f (initial path (nested (S n)))) as [A B].
  cbn [depths fold_right] in A, B. rewrite D in A, B. split; intros L.
  - destruct A as [s [Q _]]; [lia|]. eauto.
  - apply B. lia.
Qed.
