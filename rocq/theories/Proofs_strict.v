(** * Proofs about macros that work on the values of their arguments

    Such a macro is the evaluation of its arguments, followed by a
    computation [finish] without recursion; that computation does what
    [Spec_lang] says. *)

From Coq Require Import String List Ascii Bool Arith NArith ZArith Lia Permutation.
From Verif Require Import Text Lossy Res Ast Env Scope State Bind Data Sorting Numbers Paths Parser
  Spec_args Spec_expand Spec_builtin Spec_bind Spec_control Spec_scope Spec_sort Spec_world Spec_errors Spec_order
  Spec_lang Proofs_text Proofs_ast Proofs_run Proofs_eval Proofs_args Proofs_builtin Proofs_simple Proofs_bind
  Proofs_control Proofs_more Proofs_get Proofs_scope Proofs_sort Proofs_extra Proofs_errors Proofs_data
  Proofs_outcomes Proofs_import Proofs_panic Proofs_world Proofs_collect Spec_events Proofs_events.
From Verif Require Import Args Expander.
Import ListNotations.

Definition still (n : node) (s : state) : out := Ok ([n], s).
Definition finish (E : env) (m : builtin) (c : call) (vs : list node) (s : state) : out :=
  run_builtin E still (fun _ _ _ _ => Hang) m c vs s.

Lemma still_exs vs : forall s, exs still vs s = Ok (vs, s).
Proof. induction vs as [|v vs IH]; intros s; [reflexivity|]. cbn. rewrite IH. reflexivity. Qed.

(** Macros that evaluate their arguments and then finish. *)
Definition strict (m : builtin) : bool :=
  match m with
  | BDefine | BMatch | BIfdef | BInclude | BNamespace | BFor | BSort | BMap | BFilter | BApply
  | BLambda => false
  | _ => true
  end.

Section WithEnv.
Variable E : env.

Lemma strict_finish ex inv m c ps s : strict m = true ->
  run_builtin E ex inv m c ps s = let* '(vs, s1) := exs ex ps s in finish E m c vs s1.
Proof.
  intros S. unfold finish.
  destruct m; try discriminate S; cbn [run_builtin];
    unfold do_do, do_get, do_text, do_convert, do_embed, do_markdown, do_yaml, do_toml, do_glob, do_reverse,
      do_date, do_timestamp, do_join, do_concat, do_splat, do_list, do_strip, do_log, do_format, do_env, eager;
    destruct (exs ex ps s) as [[vs s1]| | | |]; cbn [bind]; rewrite ?still_exs; reflexivity.
Qed.

Lemma visible_touch c s : visible (touch c s) = visible s.
Proof. unfold touch. destruct (_ =? _); reflexivity. Qed.
Lemma defs_touch c s : x_defs (touch c s) = x_defs s.
Proof. unfold touch. destruct (_ =? _); reflexivity. Qed.

Lemma set_visible d s : visible (set_defs d s) = with_defs d (visible s).
Proof. reflexivity. Qed.
Lemma visible_defs s : k_defs (visible s) = x_defs s.
Proof. reflexivity. Qed.

Section Macros.
Variable c : call.
Variable vs : list node.
Variable s : state.
Notation n := (c_node c).
Notation v := (visible s).

(** A macro with rules. *)
Lemma by_rules m rs (k : args -> out) (R : result -> Prop) r :
  finish E m c vs s = bind (arguments rs n vs) k ->
  well_formed rs ->
  (forall r, R r -> accepted rs vs) ->
  (forall x r, accepted rs vs -> arguments rs n vs = Ok x -> (R r <-> r = seen (k x))) ->
  (R r \/ refused rs n vs r) <-> r = seen (finish E m c vs s).
Proof.
  intros F W RA RK. rewrite F, (refused_iff rs n vs r W).
  destruct (arguments_cases rs n vs W) as [[A [x X]] | [A [e X]]]; rewrite X; cbn [bind seen].
  - rewrite (RK x r A X). split; [|auto]. intros [H|[e [_ H]]]; [exact H|discriminate].
  - split.
    + intros [H|[e' [-> H]]]; [exfalso; exact (A (RA r H))|]. congruence.
    + intros ->. right. eauto.
Qed.

Lemma fin_do r : does vs v r <-> r = seen (finish E BDo c vs s).
Proof.
  unfold finish. cbn [run_builtin]. unfold do_do. rewrite still_exs. cbn [seen].
  split; [intros []; reflexivity|]. intros ->. constructor.
Qed.

Lemma fin_get r : (gets vs v r \/ refused rules_get n vs r) <-> r = seen (finish E BGet c vs s).
Proof.
  apply by_rules with (k := fun x => let* path := need as_atom (PInt 1) x in
       let* n := need as_node (PInt 2) x in
       let* sep := want as_atom (PStr (b "separator")) x in
       let* m := get_path (split (val_or (b "/") sep) (a_val path)) n in
       Ok ([m], touch c s)).
  - unfold finish. cbn [run_builtin]. unfold do_get, eager. rewrite still_exs. cbn [bind].
    destruct (arguments _ _ _); reflexivity.
  - exact wf_get.
  - intros r' []; assumption.
  - intros x r' A X. pose proof A as A0. apply accepted_get in A as [p [w [P [L O]]]].
    destruct (atomic p) as [path|] eqn:Ap; [|exfalso; apply L; exact Ap].
    rewrite (need_atom _ _ _ _ wf_get X (PInt 1) (mandatory 1 lit) p path ltac:(rule) ltac:(cbn; rewrite P; reflexivity) Ap eq_refl).
    rewrite (need_node _ _ _ _ wf_get X (PInt 2) (mandatory 2 (TAny [])) w [] ltac:(rule) ltac:(cbn; rewrite P; reflexivity) eq_refl).
    rewrite (want_atom _ _ _ _ wf_get X (PStr (b "separator")) (option_named (b "separator") lit) ltac:(rule) eq_refl).
    cbn [bind given]. rewrite val_or_chosen.
    destruct (get_path_reaches (split (chosen (b "separator") (b "/") vs) (a_val path)) w) as [G1 G2].
    split.
    + intros H. inversion H as [p' path' v' m' A' P' Ap' R'|p' path' v' m' A' P' Ap' R']; subst;
        rewrite P in P'; inversion P'; subst; rewrite Ap in Ap'; inversion Ap'; subst.
      * apply G1 in R'. rewrite R'. cbn [bind seen]. rewrite visible_touch. reflexivity.
      * assert (Z := proj2 (stuck_iff _ v' (node_site m')) (ex_intro _ m' (conj R' eq_refl))). rewrite Z. reflexivity.
    + intros ->. destruct (get_path _ w) as [m|e|q| |] eqn:G; cbn [bind seen].
      * rewrite visible_touch. eapply gets_item; eauto. apply G1. reflexivity.
      * assert (Z : forall m, ~ reaches (split (chosen (b "separator") (b "/") vs) (a_val path)) w m).
        { intros m R. apply G1 in R. discriminate. }
        destruct (G2 Z) as [st H]. inversion H; subst. apply stuck_iff in G as [m [M ->]].
        eapply gets_stuck; eauto.
      * exfalso. destruct G2 as [st H]; [intros m R; apply G1 in R|]; discriminate.
      * exfalso. destruct G2 as [st H]; [intros m R; apply G1 in R|]; discriminate.
      * exfalso. destruct G2 as [st H]; [intros m R; apply G1 in R|]; discriminate.
Qed.

Lemma fin_text make k m r :
  (forall ex inv, run_builtin E ex inv m = do_text ex make k) ->
  quotes n vs v make k r <-> r = seen (finish E m c vs s).
Proof.
  intros H. unfold finish. rewrite H. unfold do_text. rewrite still_exs. cbn [bind].
  destruct (atoms vs) as [al|bad] eqn:A; cbn [seen].
  - rewrite visible_touch. apply atoms_iff in A. split.
    + intros [al' A'|bad F].
      * rewrite <- A in A'. apply some_inj in A'. subst. reflexivity.
      * apply atoms_first in F. apply atoms_iff in A. congruence.
    + intros ->. constructor. exact A.
  - split.
    + intros [al' A'|bad' F]; [apply atoms_iff in A'; congruence|].
      apply atoms_first in F. rewrite A in F. inversion F; subst. reflexivity.
    + intros ->. apply atoms_first in A. constructor. exact A.
Qed.

Lemma fin_convert make m r :
  (forall ex inv, run_builtin E ex inv m = do_convert ex make) ->
  (converts vs v make r \/ refused rules_literals n vs r) <-> r = seen (finish E m c vs s).
Proof.
  intros H. apply by_rules with (k := fun x => let* l := rest_of as_atom x in Ok (map make l, touch c s)).
  - unfold finish. rewrite H. unfold do_convert, eager. rewrite still_exs. cbn [bind].
    destruct (arguments _ _ _); reflexivity.
  - exact wf_literals.
  - intros r' [al A]. apply accepted_literals, texts_literal. eexists. apply texts_iff. eauto.
  - intros x r' A X. apply accepted_literals in A.
    destruct (rest_atoms _ _ _ _ wf_literals X lit eq_refl eq_refl) as [al [R1 R2]].
    rewrite (surplus_literals vs A) in R2. rewrite R1. cbn [bind seen]. rewrite visible_touch. split.
    + intros [al' A']. rewrite <- R2 in A'. apply some_inj in A'. subst. reflexivity.
    + intros ->. constructor. exact R2.
Qed.

Lemma fin_concat r :
  (concats n vs v r \/ refused rules_literals n vs r) <-> r = seen (finish E BConcat c vs s).
Proof.
  apply by_rules with (k := fun x => let* l := rest_of as_atom x in
       Ok ([Str (here c (fold_left (fun acc a => acc ++ a_val a) l []))], touch c s)).
  - unfold finish. cbn [run_builtin]. unfold do_concat, eager. rewrite still_exs. cbn [bind].
    destruct (arguments _ _ _); reflexivity.
  - exact wf_literals.
  - intros r' [al A]. apply accepted_literals, texts_literal. eauto.
  - intros x r' A X. apply accepted_literals in A.
    destruct (rest_atoms _ _ _ _ wf_literals X lit eq_refl eq_refl) as [al [R1 R2]].
    rewrite (surplus_literals vs A) in R2. rewrite R1. cbn [bind seen]. rewrite visible_touch, fold_concat. cbn [app].
    assert (T : texts vs = Some (map a_val al)) by (apply texts_iff; eauto). split.
    + intros [ps T']. rewrite T in T'. inversion T'; subst. rewrite separated_nil. reflexivity.
    + intros ->. unfold here. fold (in_place n (concat (map a_val al))). rewrite <- separated_nil.
      constructor. exact T.
Qed.

Lemma fin_join r : (joins n vs v r \/ refused rules_join n vs r) <-> r = seen (finish E BJoin c vs s).
Proof.
  apply by_rules with (k := fun x => let* sep := need as_atom (PInt 1) x in
       let* trailing := want as_atom (PStr (b "trailing")) x in
       let* l := rest_of as_atom x in
       let tail := if beq (val_or (b "false") trailing) (b "true") then a_val sep else [] in
       Ok ([Str (here c (join (a_val sep) (map a_val l) ++ tail))], touch c s)).
  - unfold finish. cbn [run_builtin]. unfold do_join, eager. rewrite still_exs. cbn [bind].
    destruct (arguments _ _ _); reflexivity.
  - exact wf_join.
  - intros r' []; assumption.
  - intros x r' A X. pose proof A as A0. apply accepted_join in A as [sepn [pieces [P [F O]]]].
    inversion F as [|? ? F1 F2]; subst. destruct (atomic sepn) as [sep|] eqn:S1; [|exfalso; apply F1; exact S1].
    destruct (rest_atoms _ _ _ _ wf_join X lit eq_refl eq_refl) as [al [R1 R2]].
    assert (S2 : surplus rules_join vs = pieces).
    { rewrite (surplus_positional _ 1), P; [reflexivity|intros [|i]; reflexivity|].
      intros k v st w I. destruct (O _ _ _ _ I) as [-> _]. reflexivity. }
    rewrite S2 in R2.
    rewrite (need_atom _ _ _ _ wf_join X (PInt 1) (mandatory 1 lit) sepn sep ltac:(rule) ltac:(cbn; rewrite P; reflexivity) S1 eq_refl).
    rewrite (want_atom _ _ _ _ wf_join X (PStr (b "trailing"))
      (option_named (b "trailing") (TLiteral (one_of [b "true"; b "false"]))) ltac:(rule) eq_refl).
    rewrite R1. cbn [bind given seen]. cbv zeta. rewrite val_or_chosen, join_separated, visible_touch.
    assert (T : texts (positionals vs) = Some (a_val sep :: map a_val al)).
    { rewrite P. apply texts_iff. exists (sep :: al). cbn. rewrite R2, S1. auto. }
    split.
    + intros [sep' ps' A' T']. rewrite T in T'. inversion T'; subst. reflexivity.
    + intros ->. apply joins_texts; assumption.
Qed.

Lemma fin_embed r : embeds E n vs v r <-> r = seen (finish E BEmbed c vs s).
Proof.
  unfold finish. cbn [run_builtin]. unfold do_embed. rewrite still_exs. cbn [bind].
  destruct vs as [|x [|y l]]; [split; [|intros ->; apply embeds_count; discriminate]| |
    split; [|intros ->; apply embeds_count; discriminate]].
  - intros []; try discriminate. reflexivity.
  - destruct (atomic x) as [a|] eqn:A.
    + pose proof (search_first E false (a_val a) (e_includes E)) as S.
      destruct (search_file E false (e_includes E) (a_val a)) as [[p text]|]; cbn [seen].
      * rewrite visible_touch. split.
        -- intros [x' a' p' text' Q A' F|x' a' Q A' F|x' Q A'|Q]; try (inversion Q; subst); try congruence.
           ++ rewrite A in A'. inversion A'; subst.
              destruct (first_readable_fun E _ _ _ _ _ S F) as [-> ->]. reflexivity.
           ++ rewrite A in A'. inversion A'; subst. exfalso. exact (readable_not_none E _ _ _ S F).
           ++ exfalso. apply Q. reflexivity.
        -- intros ->. eapply embeds_file; eauto.
      * split.
        -- intros [x' a' p' text' Q A' F|x' a' Q A' F|x' Q A'|Q]; try (inversion Q; subst); try congruence.
           ++ rewrite A in A'. inversion A'; subst. exfalso. exact (readable_not_none E _ _ _ F S).
           ++ rewrite A in A'. inversion A'; subst. reflexivity.
           ++ exfalso. apply Q. reflexivity.
        -- intros ->. eapply embeds_missing; eauto.
    + split.
      * intros [x' a' p' text' Q A' F|x' a' Q A' F|x' Q A'|Q]; try (inversion Q; subst); try congruence; try reflexivity.
        exfalso. apply Q. reflexivity.
      * intros ->. apply embeds_other; auto.
  - intros [x' a' p' text' Q A' F|x' a' Q A' F|x' Q A'|Q]; try discriminate. reflexivity.
Qed.

(** ** Documents *)

Lemma yaml_fuel text sep st d : expand_yaml E text sep st d <> OutOfFuel.
Proof.
  unfold expand_yaml. destruct (e_yaml E text) as [es ok].
  destruct (y_events_cases sep st es sink_new d) as [[x ->]|[p [-> _]]]; [|discriminate]. destruct x. discriminate.
Qed.

Lemma document_atom rs a a' : document vs rs a -> document vs rs a' -> a = a'.
Proof. intros [p [_ [P A]]] [p' [_ [P' A']]]. congruence. Qed.

Lemma fin_yaml r :
  (reads_yaml E n vs v r \/ refused rules_yaml n vs r) <-> r = seen (finish E BYaml c vs s).
Proof.
  apply by_rules with (k := fun x => let* text := need as_atom (PInt 1) x in
       let* sep := want as_atom (PStr (b "separator")) x in
       let* '(r, defs) := expand_yaml E (a_val text) (val_or (b "/") sep) (call_site c) (x_defs (touch c s)) in
       let* ns := r in Ok (ns, touch c (set_defs defs (touch c s)))).
  - unfold finish. cbn [run_builtin]. unfold do_yaml, eager. rewrite still_exs. cbn [bind].
    destruct (arguments _ _ _); reflexivity.
  - exact wf_yaml.
  - intros r' H. destruct H as [a ? ? D|a ? ? ? D|a ? ? D]; destruct D as [p [A _]]; exact A.
  - intros x r' A X. destruct (yaml_fields n vs x A X) as [p [a [P [L [O [X1 X2]]]]]].
    rewrite X1, X2. cbn [bind]. rewrite val_or_chosen, defs_touch. unfold call_site.
    assert (D : document vs rules_yaml a).
    { exists p. split; [exact A|]. split; [exact P|]. destruct L as [->| ->]; reflexivity. }
    pose proof (yaml_fuel (a_val a) (chosen (b "separator") (b "/") vs) (node_site n) (x_defs s)) as NF.
    destruct (expand_yaml E (a_val a) (chosen (b "separator") (b "/") vs) (node_site n) (x_defs s)) as [[q d]|e|pn| |] eqn:Y;
      pose proof (proj1 (yaml_text_iff _ _ _ _ _ _) Y) as YT; cbn [bind seen]; [|split..|congruence].
    + pose proof (yaml_inner E _ _ _ _ _ _ Y) as T. split.
      * intros [a' ns d' D' Y'|a' q' d' r0 D' Y' F|a' q' r0 D' Y' F]; pose proof (document_atom _ _ _ D D'); subst a';
          rewrite visible_defs in Y'; apply yaml_text_iff in Y'; rewrite Y in Y'.
        -- inversion Y'; subst. cbn [bind seen]. rewrite visible_touch, set_visible, visible_touch. reflexivity.
        -- inversion Y'; subst. destruct q'; try contradiction; cbn in F; subst; reflexivity.
        -- subst q'. contradiction.
      * intros ->. destruct T as [[ns ->]|[e ->]]; cbn [bind seen].
        -- rewrite visible_touch, set_visible, visible_touch. eapply reads_yaml_ok; eauto.
        -- eapply reads_yaml_error; eauto. reflexivity.
    + intros [a' ns d' D' Y'|a' q' d' r0 D' Y' F|a' q' r0 D' Y' F]; pose proof (document_atom _ _ _ D D'); subst a';
        rewrite visible_defs in Y'; apply yaml_text_iff in Y'; rewrite Y in Y'; try discriminate. subst q'. exact F.
    + intros ->. eapply reads_yaml_panic; eauto. reflexivity.
    + intros [a' ns d' D' Y'|a' q' d' r0 D' Y' F|a' q' r0 D' Y' F]; pose proof (document_atom _ _ _ D D'); subst a';
        rewrite visible_defs in Y'; apply yaml_text_iff in Y'; rewrite Y in Y'; try discriminate. subst q'. exact F.
    + intros ->. eapply reads_yaml_panic; eauto. reflexivity.
    + intros [a' ns d' D' Y'|a' q' d' r0 D' Y' F|a' q' r0 D' Y' F]; pose proof (document_atom _ _ _ D D'); subst a';
        rewrite visible_defs in Y'; apply yaml_text_iff in Y'; rewrite Y in Y'; try discriminate. subst q'. exact F.
    + intros ->. eapply reads_yaml_panic; eauto. reflexivity.
Qed.

Lemma toml_inner text sep st d q d' : expand_toml E text sep st d = (q, d') -> tame q.
Proof.
  unfold expand_toml. destruct (e_toml E text).
  - destruct (traverse _ _ _ _ _ _). intros H. inversion H. left. eauto.
  - intros H. inversion H. right. eauto.
Qed.

Lemma fin_toml r :
  (reads_toml E n vs v r \/ refused rules_yaml n vs r) <-> r = seen (finish E BToml c vs s).
Proof.
  apply by_rules with (k := fun x => let* text := need as_atom (PInt 1) x in
       let* sep := want as_atom (PStr (b "separator")) x in
       let '(r, defs) := expand_toml E (a_val text) (val_or (b "/") sep) (call_site c) (x_defs (touch c s)) in
       let* ns := r in Ok (ns, touch c (set_defs defs (touch c s)))).
  - unfold finish. cbn [run_builtin]. unfold do_toml, eager. rewrite still_exs. cbn [bind].
    destruct (arguments _ _ _); reflexivity.
  - exact wf_yaml.
  - intros r' H. destruct H as [a ? ? D|a ? ? ? D]; destruct D as [p [A _]]; exact A.
  - intros x r' A X. destruct (yaml_fields n vs x A X) as [p [a [P [L [O [X1 X2]]]]]].
    rewrite X1, X2. cbn [bind]. rewrite val_or_chosen, defs_touch. unfold call_site.
    assert (D : document vs rules_yaml a).
    { exists p. split; [exact A|]. split; [exact P|]. destruct L as [->| ->]; reflexivity. }
    destruct (expand_toml E (a_val a) (chosen (b "separator") (b "/") vs) (node_site n) (x_defs s)) as [q d] eqn:Y.
    pose proof (proj1 (toml_text_iff _ _ _ _ _ _) Y) as YT. pose proof (toml_inner _ _ _ _ _ _ Y) as T. split.
    + intros [a' ns d' D' Y'|a' q' d' r0 D' Y' F]; pose proof (document_atom _ _ _ D D'); subst a';
        rewrite visible_defs in Y'; apply toml_text_iff in Y'; rewrite Y in Y'.
      * inversion Y'; subst. cbn [bind seen]. rewrite visible_touch, set_visible, visible_touch. reflexivity.
      * inversion Y'; subst. destruct q'; try contradiction; cbn in F; subst; reflexivity.
    + intros ->. destruct T as [[ns ->]|[e ->]]; cbn [bind seen].
      * rewrite visible_touch, set_visible, visible_touch. eapply reads_toml_ok; eauto.
      * eapply reads_toml_error; eauto. reflexivity.
Qed.

(** The front matter, on definitions. *)
Definition front_of (a : atom) : res (res unit * scope) :=
  match e_front E (a_val a) with
  | None | Some FNone => Ok (Err (EErr EMarkdown (a_site a)), x_defs s)
  | Some (FYaml text) =>
      let* '(q, d) := expand_yaml E text (chosen (b "separator") (b "/") vs) (node_site n) (x_defs s) in
      Ok (rmap (fun _ => tt) q, d)
  | Some (FToml text) =>
      let '(q, d) := expand_toml E text (chosen (b "separator") (b "/") vs) (node_site n) (x_defs s) in
      Ok (rmap (fun _ => tt) q, d)
  end.

Lemma front_spec a q : front E n vs v a q <-> q = front_of a.
Proof.
  unfold front_of. split.
  - intros [[H|H]|text q0 d H Y|text q0 r H Y F|text q0 d H Y]; rewrite H; try reflexivity.
    + rewrite visible_defs in Y. apply yaml_text_iff in Y. rewrite Y. reflexivity.
    + rewrite visible_defs in Y. apply yaml_text_iff in Y. rewrite Y. destruct q0; try contradiction; exact F.
    + rewrite visible_defs in Y. apply toml_text_iff in Y. rewrite Y. reflexivity.
  - intros ->. destruct (e_front E (a_val a)) as [[text|text|]|] eqn:H.
    + pose proof (yaml_fuel text (chosen (b "separator") (b "/") vs) (node_site n) (x_defs s)) as NF.
      destruct (expand_yaml E text _ _ _) as [[q d]|e|p| |] eqn:Y; pose proof (proj1 (yaml_text_iff _ _ _ _ _ _) Y) as YT; cbn [bind].
      * eapply front_yaml; eauto.
      * eapply front_yaml_panic; eauto. reflexivity.
      * eapply front_yaml_panic; eauto. reflexivity.
      * eapply front_yaml_panic; eauto. reflexivity.
      * congruence.
    + destruct (expand_toml E text _ _ _) as [q d] eqn:Y. pose proof (proj1 (toml_text_iff _ _ _ _ _ _) Y) as YT. eapply front_toml; eauto.
    + constructor. auto.
    + constructor. auto.
Qed.

Lemma front_calm a : front_of a <> OutOfFuel /\ forall q d, front_of a = Ok (q, d) -> tame q.
Proof.
  unfold front_of. destruct (e_front E (a_val a)) as [[text|text|]|].
  - pose proof (yaml_fuel text (chosen (b "separator") (b "/") vs) (node_site n) (x_defs s)) as NF.
    destruct (expand_yaml E text _ _ _) as [[q d]|e|p| |] eqn:Y; cbn [bind]; (split; [try discriminate; congruence|]); intros q' d' H; inversion H; subst.
    destruct (yaml_inner E _ _ _ _ _ _ Y) as [[x ->]|[e ->]]; [left|right]; cbn; eauto.
  - destruct (expand_toml E text _ _ _) as [q d] eqn:Y. split; [discriminate|]. intros q' d' H. inversion H; subst.
    destruct (toml_inner _ _ _ _ _ _ Y) as [[x ->]|[e ->]]; [left|right]; cbn; eauto.
  - split; [discriminate|]. intros q d H. inversion H; subst. right. eauto.
  - split; [discriminate|]. intros q d H. inversion H; subst. right. eauto.
Qed.

Lemma frontmatter_of a :
  frontmatter E c a (chosen (b "separator") (b "/") vs) (touch c s) =
  let* '(q, d) := front_of a in Ok (q, set_defs d (touch c s)).
Proof.
  unfold frontmatter, front_of, call_site. rewrite defs_touch. destruct (e_front E (a_val a)) as [[text|text|]|].
  - destruct (expand_yaml E text _ _ _) as [[q d]| | | |]; reflexivity.
  - destruct (expand_toml E text _ _ _) as [q d]. reflexivity.
  - cbn [bind]. unfold set_defs, error. f_equal. f_equal. rewrite <- (defs_touch c s). destruct (touch c s). reflexivity.
  - cbn [bind]. unfold set_defs, error. f_equal. f_equal. rewrite <- (defs_touch c s). destruct (touch c s). reflexivity.
Qed.

Lemma html_spec a d (s' : state) r : visible s' = with_defs d v ->
  html E n v a d r <->
  r = seen (let* ns := match e_html E (a_val a) with
    | Some html => Ok [Raw (here c html)]
    | None => error EMarkdown (a_site a)
    end in Ok (ns, s')).
Proof.
  intros V. split.
  - intros [text H|H]; rewrite H; cbn [bind seen]; [rewrite V|]; reflexivity.
  - intros ->. destruct (e_html E (a_val a)) as [text|] eqn:H; cbn [bind seen]; [rewrite V|]; constructor; exact H.
Qed.

Lemma fin_markdown r :
  (marks E n vs v r \/ refused rules_markdown n vs r) <-> r = seen (finish E BMarkdown c vs s).
Proof.
  apply by_rules with (k := fun x => let s := touch c s in let* contents := need as_atom (PInt 1) x in
  let* only := want as_atom (PStr (b "only")) x in
  let* sep := want as_atom (PStr (b "separator")) x in
  let sep := val_or (b "/") sep in
  let html :=
    match e_html E (a_val contents) with
    | Some html => Ok [Raw (here c html)]
    | None => error EMarkdown (a_site contents)
    end in
  match option_map a_val only with
  | None =>
      let* '(_, s) := frontmatter E c contents sep s in
      let* ns := html in Ok (ns, touch c s)
  | Some o =>
      if beq o (b "frontmatter") then
        let* '(r, s) := frontmatter E c contents sep s in
        let* _ := r in Ok ([], touch c s)
      else if beq o (b "content") then let* ns := html in Ok (ns, touch c s)
      else Panic PUnreachable
  end).
  - unfold finish. cbn [run_builtin]. unfold do_markdown, eager. rewrite still_exs. cbn [bind].
    destruct (arguments _ _ _); reflexivity.
  - exact wf_markdown.
  - intros r' H. destruct H as [a ? D|a ? D|a ? ? ? D|a ? ? ? D|a ? ? D]; destruct D as [p [A _]]; exact A.
  - intros x r' A X. pose proof A as A0. apply accepted_markdown in A as [p [a [P [L O]]]].
    assert (X1 : need as_atom (PInt 1) x = Ok a).
    { apply (need_atom _ _ _ _ wf_markdown X (PInt 1) (mandatory 1 (TString [])) p); [rule|cbn; rewrite P; reflexivity|destruct L as [->| ->]; reflexivity|reflexivity]. }
    assert (X2 := want_atom _ _ _ _ wf_markdown X (PStr (b "only"))
      (option_named (b "only") (TLiteral (one_of [b "frontmatter"; b "content"]))) ltac:(rule) eq_refl).
    assert (X3 := want_atom _ _ _ _ wf_markdown X (PStr (b "separator")) (option_named (b "separator") lit) ltac:(rule) eq_refl).
    cbn [given] in X2, X3. cbv zeta. rewrite X1, X2, X3. cbn [bind]. rewrite val_or_chosen.
    assert (T : forall v st w, In (Attr (b "only") v st w) vs -> text_among [b "frontmatter"; b "content"] v).
    { intros v st w I. destruct (O _ _ _ _ I) as [[H _]|[_ H]]; [discriminate|exact H]. }
    assert (D : document vs rules_markdown a).
    { exists p. split; [exact A0|]. split; [exact P|]. destruct L as [->| ->]; reflexivity. }
    rewrite frontmatter_of.
    destruct (front_calm a) as [NF TF].
    assert (V1 : forall d, visible (touch c (set_defs d (touch c s))) = with_defs d v).
    { intros d. rewrite visible_touch, set_visible, visible_touch. reflexivity. }
    assert (V2 : visible (touch c (touch c s)) = with_defs (x_defs s) v).
    { rewrite !visible_touch. reflexivity. }
    destruct (keyword_value (b "only") vs) as [o|] eqn:KV.
    + pose proof KV as KV0. apply keyword_in in KV0 as [st [w I]]. destruct (T _ _ _ I) as [oa [Ao In_]].
      rewrite Ao. cbn [option_map].
      assert (CH : chosen (b "only") [] vs = a_val oa) by (unfold chosen; rewrite KV, Ao; reflexivity).
      destruct In_ as [In_|[In_|[]]]; rewrite <- In_ in *.
      * change (beq (b "frontmatter") (b "frontmatter")) with true. cbv iota. split.
        -- intros [a' r0 D' Q H|a' d D' Q H|a' q d r0 D' Q H F|a' q d r0 D' Q H G|a' q r0 D' Q H F]; try congruence;
             try (exfalso; rewrite CH in Q; revert Q; vm_compute; discriminate);
             pose proof (document_atom _ _ _ D D'); subst a'; apply front_spec in H; rewrite <- H; cbn [bind].
           ++ cbn [seen]. rewrite V1. reflexivity.
           ++ destruct q; try contradiction; cbn in F; subst; reflexivity.
           ++ destruct q as [[q d]| | | |]; try contradiction; cbn in F; subst; reflexivity.
        -- intros ->. destruct (front_of a) as [[q d]|e|pn| |] eqn:F; cbn [bind].
           ++ destruct (TF q d eq_refl) as [[[] ->]|[e ->]]; cbn [bind seen].
              ** rewrite V1. eapply marks_front; eauto. apply front_spec. auto.
              ** eapply marks_no_front; eauto; [apply front_spec; eauto|reflexivity].
           ++ eapply marks_panic; [exact D|rewrite CH; discriminate|apply front_spec; symmetry; exact F|reflexivity].
           ++ eapply marks_panic; [exact D|rewrite CH; discriminate|apply front_spec; symmetry; exact F|reflexivity].
           ++ eapply marks_panic; [exact D|rewrite CH; discriminate|apply front_spec; symmetry; exact F|reflexivity].
           ++ congruence.
      * change (beq (b "content") (b "frontmatter")) with false. change (beq (b "content") (b "content")) with true. cbv iota.
        rewrite <- (html_spec a (x_defs s) _ r' V2). split.
        -- intros [a' r0 D' Q H|a' d D' Q H|a' q d r0 D' Q H F|a' q d r0 D' Q H G|a' q r0 D' Q H F]; try congruence;
             try (exfalso; rewrite CH in Q; revert Q; vm_compute; discriminate).
           pose proof (document_atom _ _ _ D D'); subst a'. exact H.
        -- intros H. eapply marks_content; eauto.
    + cbn [option_map].
      assert (CH : chosen (b "only") [] vs = []) by (unfold chosen; rewrite KV; reflexivity).
      split.
      * intros [a' r0 D' Q H|a' d D' Q H|a' q d r0 D' Q H F|a' q d r0 D' Q H G|a' q r0 D' Q H F]; try congruence;
          try (exfalso; rewrite CH in Q; revert Q; vm_compute; discriminate);
          pose proof (document_atom _ _ _ D D'); subst a'; apply front_spec in H; rewrite <- H; cbn [bind].
        -- apply (html_spec a d _ r0 (V1 d)). exact G.
        -- destruct q as [[q d]| | | |]; try contradiction; cbn in F; subst; reflexivity.
      * intros ->. destruct (front_of a) as [[q d]|e|pn| |] eqn:F; cbn [bind].
        -- eapply marks_both; [exact D|exact KV|apply front_spec; symmetry; exact F|]. apply (html_spec a d _ _ (V1 d)). reflexivity.
        -- eapply marks_panic; [exact D|rewrite CH; discriminate|apply front_spec; symmetry; exact F|reflexivity].
        -- eapply marks_panic; [exact D|rewrite CH; discriminate|apply front_spec; symmetry; exact F|reflexivity].
        -- eapply marks_panic; [exact D|rewrite CH; discriminate|apply front_spec; symmetry; exact F|reflexivity].
        -- congruence.
Qed.

(** ** The outside world *)

Lemma lists_spec pat t k up r :
  lists E v pat t k up r <->
  exists r0, globbed E t k up pat (touch c s) (e_glob E (a_val pat)) r0 /\ r = seen r0.
Proof.
  split.
  - intros [l fs cmp out G F K H|G|good rest fs G H|good rest fs p G H]; rewrite G.
    + eexists. split; [apply (globbed_ok E t k up pat (touch c s) l out)|].
      { rewrite (collect_all E t k l fs F). do 2 f_equal. apply collect_iff.
        apply (collected_ext E cmp); [|exact H]. intros x y. apply compares_unique, K. } cbn [seen]. rewrite visible_touch. reflexivity.
    + eexists. split; [apply globbed_pattern|]. reflexivity.
    + eexists. split; [eapply globbed_error, H|]. reflexivity.
    + eexists. split; [eapply globbed_panic, H|]. reflexivity.
  - intros [r0 [G ->]]. remember (e_glob E (a_val pat)) as o eqn:O. symmetry in O.
    destruct G as [|good rest fs G|good rest fs p G|l fs G]; cbn [seen].
    + apply lists_pattern, O.
    + eapply lists_error; eauto.
    + eapply lists_panic; eauto.
    + rewrite visible_touch. destruct (all_found l) as [all|] eqn:F.
      * rewrite (collect_all E t k l all F) in G. injection G as <-.
        eapply lists_ok; [exact O|exact F|apply found_cmp_by|]. apply collect_iff. reflexivity.
      * exfalso. destruct (collect_none E t k l F) as [H|[H _]]; rewrite H in G; discriminate.
Qed.

Lemma fin_glob r : (globs E vs v r \/ refused rules_glob n vs r) <-> r = seen (finish E BGlob c vs s).
Proof.
  apply by_rules with (k := fun x => let s := touch c s in let* pattern := need as_atom (PInt 1) x in
  let* type := want as_atom (PStr (b "type")) x in
  let* sort := want as_atom (PStr (b "sort")) x in
  let* order := want as_atom (PStr (b "order")) x in
  let* type :=
    match option_map a_val type with
    | None => Ok AnyPath
    | Some t => if beq t (b "file") then Ok OnlyFiles
                else if beq t (b "directory") then Ok OnlyDirs
                else if beq t (b "any") then Ok AnyPath
                else Panic PUnreachable
    end in
  let* sort :=
    match option_map a_val sort with
    | None => Ok ByNone
    | Some k => if beq k (b "modified") then Ok ByModified
                else if beq k (b "created") then Ok ByCreated
                else if beq k (b "name") then Ok ByName
                else if beq k (b "type") then Ok ByType
                else if beq k (b "none") then Ok ByNone
                else Panic PUnreachable
    end in
  let ascending := beq (val_or (b "ascending") order) (b "ascending") in
  match e_glob E (a_val pattern) with
  | None => error EGlob (a_site pattern)
  | Some entries =>
      let* set := glob_collect E type sort entries in
      match set with
      | None => error EGlob (a_site pattern)
      | Some set =>
          let set := if ascending then set else rev set in
          Ok (set_first_ws []
                (map (fun f => Str (Atom (lossy (f_path f)) (a_site pattern) (b " "))) set), s)
      end
  end).
  - unfold finish. cbn [run_builtin]. unfold do_glob, eager. rewrite still_exs. cbn [bind].
    destruct (arguments _ _ _); reflexivity.
  - exact wf_glob.
  - intros r' [pat t k up r0 [p [P [F [O _]]]] _]. apply accepted_glob. exists p.
    split; [exact P|]. split; [unfold literal; congruence|exact O].
  - intros x r' A X. apply accepted_glob in A as [p [P [F O]]]. cbv zeta.
    destruct (atomic p) as [pat|] eqn:Ap; [|exfalso; apply F; exact Ap].
    assert (X1 : need as_atom (PInt 1) x = Ok pat).
    { apply (need_atom _ _ _ _ wf_glob X (PInt 1) (mandatory 1 lit) p); [rule|cbn; rewrite P; reflexivity|exact Ap|reflexivity]. }
    assert (X2 := want_atom _ _ _ _ wf_glob X (PStr (b "type"))
      (option_named (b "type") (TLiteral (one_of [b "file"; b "directory"; b "any"]))) ltac:(rule) eq_refl).
    assert (X3 := want_atom _ _ _ _ wf_glob X (PStr (b "sort"))
      (option_named (b "sort") (TLiteral (one_of [b "modified"; b "created"; b "name"; b "type"; b "none"]))) ltac:(rule) eq_refl).
    assert (X4 := want_atom _ _ _ _ wf_glob X (PStr (b "order"))
      (option_named (b "order") (TLiteral (one_of [b "ascending"; b "descending"]))) ltac:(rule) eq_refl).
    cbn [given] in X2, X3, X4. rewrite X1, X2, X3, X4. cbn [bind]. rewrite val_or_chosen.
    assert (T : forall v st w, In (Attr (b "type") v st w) vs -> text_among [b "file"; b "directory"; b "any"] v).
    { intros v st w I. destruct (O _ _ _ _ I) as [[_ H]|[[H _]|[H _]]]; [exact H|discriminate|discriminate]. }
    assert (S : forall v st w, In (Attr (b "sort") v st w) vs -> text_among [b "modified"; b "created"; b "name"; b "type"; b "none"] v).
    { intros v st w I. destruct (O _ _ _ _ I) as [[H _]|[[_ H]|[H _]]]; [discriminate|exact H|discriminate]. }
    assert (Q1 : match option_map a_val (match keyword_value (b "type") vs with Some v => atomic v | None => None end) with
      | None => Ok AnyPath
      | Some t => if beq t (b "file") then Ok OnlyFiles
                else if beq t (b "directory") then Ok OnlyDirs
                else if beq t (b "any") then Ok AnyPath
                else Panic PUnreachable
      end = Ok (type_named (chosen (b "type") (b "any") vs))).
    { pose proof (among_chosen (b "type") (b "any") [b "file"; b "directory"; b "any"] vs (or_intror (or_intror (or_introl eq_refl))) T) as C. unfold chosen in *.
      destruct (keyword_value (b "type") vs) as [v'|]; [|reflexivity]. destruct (atomic v') as [a|]; [|reflexivity].
      cbn [option_map]. unfold type_named. destruct C as [C|[C|[C|[]]]]; rewrite <- C; reflexivity. }
    assert (Q2 : match option_map a_val (match keyword_value (b "sort") vs with Some v => atomic v | None => None end) with
      | None => Ok ByNone
      | Some k => if beq k (b "modified") then Ok ByModified
                else if beq k (b "created") then Ok ByCreated
                else if beq k (b "name") then Ok ByName
                else if beq k (b "type") then Ok ByType
                else if beq k (b "none") then Ok ByNone
                else Panic PUnreachable
      end = Ok (key_named (chosen (b "sort") (b "none") vs))).
    { pose proof (among_chosen (b "sort") (b "none") [b "modified"; b "created"; b "name"; b "type"; b "none"] vs
        (or_intror (or_intror (or_intror (or_intror (or_introl eq_refl))))) S) as C. unfold chosen in *.
      destruct (keyword_value (b "sort") vs) as [v'|]; [|reflexivity]. destruct (atomic v') as [a|]; [|reflexivity].
      cbn [option_map]. unfold key_named. destruct C as [C|[C|[C|[C|[C|[]]]]]]; rewrite <- C; reflexivity. }
    rewrite Q1, Q2. cbn [bind].
    match goal with |- _ <-> r' = seen ?rhs => set (R := rhs) end.
    assert (K : forall r, globbed E (type_named (chosen (b "type") (b "any") vs)) (key_named (chosen (b "sort") (b "none") vs))
      (beq (chosen (b "order") (b "ascending") vs) (b "ascending")) pat (touch c s)
      (e_glob E (a_val pat)) r <-> r = R) by (intros r0; apply globbed_spec).
    split.
    + intros [pat' t k up r0 [p' [P' [F' [_ [-> [-> ->]]]]]] G]. assert (pat' = pat) by congruence. subst pat'.
      apply lists_spec in G as [r1 [G ->]]. apply K in G. subst. reflexivity.
    + intros ->. econstructor; [exists p; eauto 8|]. apply lists_spec. exists R. split; [apply K|]; reflexivity.
Qed.

Lemma fin_date r : (dates E n vs v r \/ refused rules_date n vs r) <-> r = seen (finish E BDate c vs s).
Proof.
  apply by_rules with (k := fun x => let s := touch c s in let* fmt := need as_atom (PInt 1) x in
  let* time := want as_atom (PInt 2) x in
  let* tz := want as_atom (PStr (b "timezone")) x in
  let* offset := timezone E tz in
  let* time :=
    match time with
    | None => Ok Now
    | Some t =>
        match parse_i64 (a_val t) with
        | None => error EDate (a_site t)
        | Some secs => if e_time_ok E secs then Ok (At secs) else error EDate (a_site t)
        end
    end in
  if east_ok offset then
    match e_date E time offset (a_val fmt) with
    | Some text => Ok ([Str (here c text)], touch c s)
    | None => Panic PUnwrap
    end
  else error EDate (match tz with Some a => a_site a | None => call_site c end)).
  - unfold finish. cbn [run_builtin]. unfold do_date, eager. rewrite still_exs. cbn [bind].
    destruct (arguments _ _ _); reflexivity.
  - exact wf_date.
  - intros r' H. assert (G : exists fmt time, dating vs fmt time) by (destruct H; eauto).
    destruct G as [fmt [time [f [a [P [L [F [_ O]]]]]]]]. apply accepted_date. exists f, time.
    split; [exact P|]. split; [exact L|]. split; [unfold literal; congruence|exact O].
  - intros x r' A X. apply accepted_date in A as [f [time [P [L [F O]]]]]. cbv zeta.
    destruct (atomic f) as [fmt|] eqn:Af; [|exfalso; apply F; exact Af].
    assert (X1 : need as_atom (PInt 1) x = Ok fmt).
    { apply (need_atom _ _ _ _ wf_date X (PInt 1) (mandatory 1 lit) f); [rule|cbn; rewrite P; reflexivity|exact Af|reflexivity]. }
    assert (X2 : want as_atom (PInt 2) x = Ok (hd_error time)).
    { rewrite (want_atom _ _ _ _ wf_date X (PInt 2) (optional 2 (TNumber []))); [|rule|reflexivity].
      cbn. rewrite P. cbn. destruct time; reflexivity. }
    assert (X3 : want as_atom (PStr (b "timezone")) x = Ok (zone_given vs)).
    { apply (want_atom _ _ _ _ wf_date X (PStr (b "timezone")) (option_named (b "timezone") (TNumber []))); [rule|reflexivity]. }
    rewrite X1, X2, X3. cbn [bind].
    change (match zone_given vs with Some a => a_site a | None => call_site c end) with (zone_site n vs).
    assert (DA : dating vs (a_val fmt) time) by (exists f, fmt; auto 8).
    assert (DU : forall fmt' time', dating vs fmt' time' -> fmt' = a_val fmt /\ time' = time).
    { intros fmt' time' [f' [a' [P' [_ [F' [<- _]]]]]].
      rewrite P in P'. inversion P' as [[Q1 Q2]]. subst f'. split; [congruence|]. clear - Q2. revert time' Q2.
      induction time as [|a time IH]; intros [|a'' time'] Q; try discriminate; [reflexivity|]. inversion Q; subst. f_equal. auto. }
    assert (Z := proj2 (zone_spec E (zone_given vs) _) eq_refl).
    assert (ZU : forall z, zone E (zone_given vs) z -> z = timezone E (zone_given vs)).
    { intros z H. apply zone_spec in H. auto. }
    destruct (timezone E (zone_given vs)) as [off|e|pn| |] eqn:TZ; cbn [bind].
    + set (q := bind (match hd_error time with
        | None => Ok Now
        | Some t =>
            match parse_i64 (a_val t) with
            | None => error EDate (a_site t)
            | Some secs => if e_time_ok E secs then Ok (At secs) else error EDate (a_site t)
            end
        end) (fun time => if east_ok off then
        match e_date E time off (a_val fmt) with
        | Some text => Ok text
        | None => Panic PUnwrap
        end
      else error EDate (zone_site n vs))).
      assert (Q : dated E (a_val fmt) off (zone_site n vs) time q) by (apply (dated_spec _ _ _ _ _ _ L); reflexivity).
      assert (QN : q <> OutOfFuel) by (destruct Q; discriminate).
      match goal with |- _ <-> r' = seen ?R => assert (RR : R = bind q (fun text => Ok ([Str (here c text)], touch c (touch c s)))) end.
      { unfold q. rewrite bind_bind. apply bind_ext_res. intros t. destruct (east_ok off); [|reflexivity].
        destruct (e_date E t off (a_val fmt)); reflexivity. }
      rewrite RR. clear RR. split.
      * intros [fmt' time' off' text D Zo Da|fmt' time' off' q' r0 D Zo Da Fa|fmt' time' q' r0 D Zo Fa];
          apply DU in D as [-> ->]; apply ZU in Zo.
        -- inversion Zo; subst off'. apply (dated_spec _ _ _ _ _ _ L) in Da. fold q in Da. rewrite <- Da. cbn [bind seen].
           rewrite !visible_touch. reflexivity.
        -- inversion Zo; subst off'. apply (dated_spec _ _ _ _ _ _ L) in Da. fold q in Da. rewrite <- Da.
           destruct q'; try contradiction; cbn in Fa; subst; reflexivity.
        -- subst q'. contradiction.
      * intros ->. destruct q as [text|e|pn| |] eqn:QQ; cbn [bind seen]; [|eapply dates_fails; eauto; reflexivity..|congruence].
        rewrite !visible_touch. eapply dates_ok; eauto.
    + split.
      * intros [fmt' time' off' text D Zo Da|fmt' time' off' q' r0 D Zo Da Fa|fmt' time' q' r0 D Zo Fa]; apply ZU in Zo; try discriminate.
        subst q'. exact Fa.
      * intros ->. eapply dates_zone; eauto. reflexivity.
    + split.
      * intros [fmt' time' off' text D Zo Da|fmt' time' off' q' r0 D Zo Da Fa|fmt' time' q' r0 D Zo Fa]; apply ZU in Zo; try discriminate.
        subst q'. exact Fa.
      * intros ->. eapply dates_zone; eauto. reflexivity.
    + split.
      * intros [fmt' time' off' text D Zo Da|fmt' time' off' q' r0 D Zo Da Fa|fmt' time' q' r0 D Zo Fa]; apply ZU in Zo; try discriminate.
        subst q'. exact Fa.
      * intros ->. eapply dates_zone; eauto. reflexivity.
    + inversion Z.
Qed.

Lemma fin_timestamp r :
  (stamps E n vs v r \/ refused rules_timestamp n vs r) <-> r = seen (finish E BTimestamp c vs s).
Proof.
  apply by_rules with (k := fun x => let s := touch c s in let* fmt := need as_atom (PInt 1) x in
  let* date := need as_atom (PInt 2) x in
  let* tz := want as_atom (PStr (b "timezone")) x in
  let* offset := timezone E tz in
  if east_ok offset then
    let* t :=
      match e_parse_date E (a_val fmt) (a_val date) with
      | Some t => Ok t
      | None =>
          match e_parse_naive E (a_val fmt) (a_val date) with
          | None => error ETimestamp (call_site c)
          | Some t => if e_time_ok E (t - offset)%Z then Ok (t - offset)%Z
                      else error ETimestamp (call_site c)
          end
      end in
    Ok ([Num (here c (show_Z t))], touch c s)
  else error EDate (match tz with Some a => a_site a | None => call_site c end)).
  - unfold finish. cbn [run_builtin]. unfold do_timestamp, eager. rewrite still_exs. cbn [bind].
    destruct (arguments _ _ _); reflexivity.
  - exact wf_timestamp.
  - intros r' H. assert (G : exists fmt date, timing vs fmt date) by (destruct H; eauto).
    destruct G as [fmt [date [f [d [a [a' [P [F [D [_ [_ O]]]]]]]]]]]. apply accepted_timestamp. exists f, d.
    split; [exact P|]. split; [unfold literal; congruence|]. split; [unfold literal; congruence|exact O].
  - intros x r' A X. apply accepted_timestamp in A as [f [d [P [F [F2 O]]]]]. cbv zeta.
    destruct (atomic f) as [fmt|] eqn:Af; [|exfalso; apply F; exact Af].
    destruct (atomic d) as [date|] eqn:Ad; [|exfalso; apply F2; exact Ad].
    assert (X1 : need as_atom (PInt 1) x = Ok fmt).
    { apply (need_atom _ _ _ _ wf_timestamp X (PInt 1) (mandatory 1 lit) f); [rule|cbn; rewrite P; reflexivity|exact Af|reflexivity]. }
    assert (X2 : need as_atom (PInt 2) x = Ok date).
    { apply (need_atom _ _ _ _ wf_timestamp X (PInt 2) (mandatory 2 lit) d); [rule|cbn; rewrite P; reflexivity|exact Ad|reflexivity]. }
    assert (X3 : want as_atom (PStr (b "timezone")) x = Ok (zone_given vs)).
    { apply (want_atom _ _ _ _ wf_timestamp X (PStr (b "timezone")) (option_named (b "timezone") (TNumber []))); [rule|reflexivity]. }
    rewrite X1, X2, X3. cbn [bind].
    change (match zone_given vs with Some a => a_site a | None => call_site c end) with (zone_site n vs).
    change (call_site c) with (node_site n).
    assert (DA : timing vs (a_val fmt) (a_val date)) by (exists f, d, fmt, date; auto 8).
    assert (DU : forall fmt' date', timing vs fmt' date' -> fmt' = a_val fmt /\ date' = a_val date).
    { intros fmt' date' [f' [d' [a [a' [P' [Q1 [Q2 [<- [<- _]]]]]]]]]. rewrite P in P'. inversion P'; subst.
      split; congruence. }
    assert (Z := proj2 (zone_spec E (zone_given vs) _) eq_refl).
    assert (ZU : forall z, zone E (zone_given vs) z -> z = timezone E (zone_given vs)).
    { intros z H. apply zone_spec in H. auto. }
    destruct (timezone E (zone_given vs)) as [off|e|pn| |] eqn:TZ; cbn [bind].
    + pose proof (timed_spec E (a_val fmt) (a_val date) off (node_site n) (zone_site n vs)) as TS.
      match goal with TS : forall r, timed _ _ _ _ _ _ r <-> r = ?rhs |- _ => set (q := rhs) in TS end.
      assert (Q : timed E (a_val fmt) (a_val date) off (node_site n) (zone_site n vs) q) by (apply TS; reflexivity).
      assert (QN : q <> OutOfFuel) by (destruct Q; discriminate).
      match goal with |- _ <-> r' = seen ?R => assert (RR : R = bind q (fun t => Ok ([Num (here c (show_Z t))], touch c (touch c s)))) end.
      { unfold q. destruct (east_ok off); reflexivity. }
      rewrite RR. clear RR. split.
      * intros [fmt' date' off' t D Zo Da|fmt' date' off' q' r0 D Zo Da Fa|fmt' date' q' r0 D Zo Fa];
          apply DU in D as [-> ->]; apply ZU in Zo.
        -- inversion Zo; subst off'. apply TS in Da. rewrite <- Da. cbn [bind seen]. rewrite !visible_touch. reflexivity.
        -- inversion Zo; subst off'. apply TS in Da. rewrite <- Da.
           destruct q'; try contradiction; cbn in Fa; subst; reflexivity.
        -- subst q'. contradiction.
      * intros ->. destruct q as [text|e|pn| |] eqn:QQ; cbn [bind seen]; [|eapply stamps_fails; eauto; reflexivity..|congruence].
        rewrite !visible_touch. eapply stamps_ok; eauto.
    + split.
      * intros [fmt' time' off' text D Zo Da|fmt' time' off' q' r0 D Zo Da Fa|fmt' time' q' r0 D Zo Fa]; apply ZU in Zo; try discriminate.
        subst q'. exact Fa.
      * intros ->. eapply stamps_zone; eauto. reflexivity.
    + split.
      * intros [fmt' time' off' text D Zo Da|fmt' time' off' q' r0 D Zo Da Fa|fmt' time' q' r0 D Zo Fa]; apply ZU in Zo; try discriminate.
        subst q'. exact Fa.
      * intros ->. eapply stamps_zone; eauto. reflexivity.
    + split.
      * intros [fmt' time' off' text D Zo Da|fmt' time' off' q' r0 D Zo Da Fa|fmt' time' q' r0 D Zo Fa]; apply ZU in Zo; try discriminate.
        subst q'. exact Fa.
      * intros ->. eapply stamps_zone; eauto. reflexivity.
    + inversion Z.
Qed.

Lemma fin_reverse r :
  (reverses vs v r \/ refused rules_reverse n vs r) <-> r = seen (finish E BReverse c vs s).
Proof.
  apply by_rules with (k := fun x => let* l := need as_list (PInt 1) x in
      match vs with
      | Lst _ st ew es w :: _ => Ok ([Lst (with_ws_of (rev l) l) st ew es w], touch c s)
      | _ => Panic PUnreachable
      end).
  - unfold finish. cbn [run_builtin]. unfold do_reverse, eager. rewrite still_exs. cbn [bind].
    destruct (arguments _ _ _); reflexivity.
  - exact wf_reverse.
  - intros r' [ns st ew es w ns' -> _]. apply accepted_reverse. eauto 8.
  - intros x r' A X. apply accepted_reverse in A as [ns [st [ew [es [w V]]]]].
    assert (X1 : need as_list (PInt 1) x = Ok ns).
    { apply (need_list _ _ _ _ wf_reverse X (PInt 1) (mandatory 1 (TList [])) (Lst ns st ew es w) []); [rule|rewrite V; reflexivity|reflexivity|reflexivity]. }
    rewrite X1, V. cbn [bind seen]. rewrite visible_touch. split.
    + intros [ns0 st0 ew0 es0 w0 ns' V' R]. inversion V'; subst.
      rewrite (reversal_fun _ _ _ R (with_ws_reversal _)). reflexivity.
    + intros ->. econstructor; [reflexivity|]. apply with_ws_reversal.
Qed.

(** ** The rest *)

Lemma fin_splat r : splats vs v r <-> r = seen (finish E BSplat c vs s).
Proof.
  unfold finish. cbn [run_builtin]. unfold do_splat. rewrite still_exs. cbn [bind seen].
  split; [intros []; reflexivity|]. intros ->. apply splats_all.
Qed.

Lemma fin_list r : enlists n vs v r <-> r = seen (finish E BList c vs s).
Proof.
  unfold finish. cbn [run_builtin]. unfold do_list. rewrite still_exs. cbn [bind].
  destruct n as [a|a|a|a|ns st ew es w|k x st w] eqn:N; cbn [seen]; rewrite ?visible_touch; split;
    try (intros []; [discriminate|reflexivity]); try (intros ->; apply enlists_panic; reflexivity).
  - intros H. inversion H as [ns0 st0 ew0 es0 w0 Q Q'|Q Q']; [inversion Q; subst; reflexivity|discriminate].
  - intros ->. eapply enlists_all. reflexivity.
Qed.

Lemma fin_strip r : strips vs v r <-> r = seen (finish E BStrip c vs s).
Proof.
  unfold finish. cbn [run_builtin]. unfold do_strip. rewrite still_exs. cbn [bind seen].
  split; [intros []; reflexivity|]. intros ->. apply strips_first.
Qed.

Lemma fin_log r : logs_line n vs v r <-> r = seen (finish E BLog c vs s).
Proof.
  unfold finish. cbn [run_builtin]. unfold do_log. rewrite still_exs. cbn [bind].
  destruct (atoms vs) as [l|bad] eqn:A; cbn [seen].
  - apply atoms_texts in A. rewrite join_separated.
    assert (V : visible (log_line (call_site c) (separated (b " ") (map a_val l)) (touch c s)) =
                saying (node_site n) (separated (b " ") (map a_val l)) v).
    { rewrite <- (visible_touch c s). reflexivity. }
    rewrite V. split.
    + intros [words T|T]; [|congruence]. rewrite A in T. inversion T; subst. reflexivity.
    + intros ->. constructor. exact A.
  - apply atoms_none in A. split.
    + intros [words T|T]; [congruence|]. reflexivity.
    + intros ->. apply logs_other. exact A.
Qed.

Lemma fin_format r : formats E n vs v r <-> r = seen (finish E BFormat c vs s).
Proof.
  unfold finish. cbn [run_builtin]. unfold do_format. rewrite still_exs. cbn [bind].
  destruct vs as [|x rest].
  - split; [|intros ->; apply formats_none; reflexivity]. intros []; try discriminate. reflexivity.
  - assert (D : (exists a, x = Str a) \/ (forall a, x <> Str a)).
    { destruct x; try (right; discriminate). left. eauto. }
    destruct D as [[fmt ->]|D].
    2: { assert (R : (match x :: rest with
           | [] => error EFormat (call_site c)
           | Str fmt :: rest => if e_template E (a_val fmt) then
               match format_args rest with
               | inl l => match e_format E (a_val fmt) l with
                          | Some text => Ok ([Str (here c text)], touch c s)
                          | None => error EFormat (a_site fmt)
                          end
               | inr v => error EFormat (node_site v)
               end else error EFormat (a_site fmt)
           | n :: _ => error EFormat (node_site n)
           end) = error EFormat (node_site x)).
         { destruct x; try reflexivity. exfalso. exact (D _ eq_refl). }
         rewrite R. cbn [seen]. split.
         - intros H. inversion H as [fmt l0 l text Q T F Fo|fmt l0 l Q T F Fo|fmt l0 y Q T F|fmt l0 Q T|y l0 Q T|Q]; subst; inversion Q; subst;
             try (exfalso; exact (D _ eq_refl)). reflexivity.
         - intros ->. eapply formats_other; eauto. }
    destruct (e_template E (a_val fmt)) eqn:TE.
    2: { cbn [seen]. split; [|intros ->; eapply formats_template; eauto].
         intros H. inversion H as [fmt' l0 l text Q T F Fo|fmt' l0 l Q T F Fo|fmt' l0 y Q T F|fmt' l0 Q T|y l0 Q T|Q]; inversion Q; subst;
           try congruence; try reflexivity. }
    destruct (format_args rest) as [l|bad] eqn:FA.
    + assert (FA0 := FA). apply format_args_ok in FA.
      assert (U : forall l', Forall2 format_value rest l' -> l' = l).
      { intros l' H. apply format_args_ok in H. congruence. }
      assert (NB : forall y, ~ first_without (fun v => literal (meant v)) rest y).
      { intros y [b1 [b2 [-> [_ N]]]]. apply N. apply Forall2_app_inv_l in FA as [l1 [l2 [_ [FA _]]]].
        inversion FA as [|? ? ? ? FV _]; subst. destruct FV as [a [Q _]]. unfold literal. congruence. }
      destruct (e_format E (a_val fmt) l) as [text|] eqn:FO; cbn [seen]; rewrite ?visible_touch; split.
      * intros H. inversion H as [fmt' l0 l1 text1 Q T F Fo|fmt' l0 l1 Q T F Fo|fmt' l0 y Q T F|fmt' l0 Q T|y l0 Q T|Q]; inversion Q; subst;
          try (apply U in F; subst l1); try congruence; try reflexivity; try (exfalso; exact (NB _ F)); try (exfalso; exact (T _ eq_refl)).
        rewrite FO in Fo. inversion Fo; subst. reflexivity.
      * intros ->. eapply formats_ok; eauto.
      * intros H. inversion H as [fmt' l0 l1 text1 Q T F Fo|fmt' l0 l1 Q T F Fo|fmt' l0 y Q T F|fmt' l0 Q T|y l0 Q T|Q]; inversion Q; subst;
          try (apply U in F; subst l1); try congruence; try reflexivity; try (exfalso; exact (NB _ F)); try (exfalso; exact (T _ eq_refl)).
      * intros ->. eapply formats_fails; eauto.
    + destruct (format_args_bad _ _ FA) as [m [M ->]]. cbn [seen]. split.
      * intros H. inversion H as [fmt' l0 l1 text1 Q T F Fo|fmt' l0 l1 Q T F Fo|fmt' l0 y Q T F|fmt' l0 Q T|y l0 Q T|Q]; inversion Q; subst;
          try (apply format_args_ok in F; congruence); try congruence; try reflexivity; try (exfalso; exact (T _ eq_refl)).
        rewrite (first_without_unique _ _ _ _ F M). reflexivity.
      * intros ->. eapply formats_value; eauto.
Qed.

Lemma fin_env r : looks_up E n vs v r <-> r = seen (finish E BEnv c vs s).
Proof.
  unfold finish. cbn [run_builtin]. unfold do_env. rewrite still_exs. cbn [bind].
  destruct vs as [|x [|y l]].
  - split; [|intros ->; apply looks_up_count; discriminate]. intros []; try discriminate. reflexivity.
  - destruct (atomic x) as [a|] eqn:A; [destruct (e_getenv E (a_val a)) as [text|] eqn:G|]; cbn [seen]; split.
    + intros [x' a' text' Q A' G'|x' a' Q A' G'|x' Q A'|Q]; try (inversion Q; subst); try congruence; try (exfalso; apply Q; reflexivity).
    + intros ->. eapply looks_up_ok; eauto.
    + intros [x' a' text' Q A' G'|x' a' Q A' G'|x' Q A'|Q]; try (inversion Q; subst); try congruence; try (exfalso; apply Q; reflexivity);
        try (rewrite A in A'; inversion A'; subst; reflexivity); reflexivity.
    + intros ->. eapply looks_up_unset; eauto.
    + intros [x' a' text' Q A' G'|x' a' Q A' G'|x' Q A'|Q]; try (inversion Q; subst); try congruence; try (exfalso; apply Q; reflexivity);
        try (rewrite A in A'; inversion A'; subst; reflexivity); reflexivity.
    + intros ->. eapply looks_up_other; eauto.
  - split; [|intros ->; apply looks_up_count; discriminate].
    intros [x' a' text' Q A' G'|x' a' Q A' G'|x' Q A'|Q]; try discriminate. reflexivity.
Qed.
End Macros.
End WithEnv.

(** ** All of them *)

Definition done E (meaning : env -> node -> list node -> context -> result -> Prop) name c vs s r : Prop :=
  meaning E (c_node c) vs (visible s) r \/ exists rs, In (name, rs) eager_rules /\ refused rs (c_node c) vs r.

Ltac in_rules := cbn; repeat (first [left; reflexivity | right]).
Ltac out_rules H := cbn in H; repeat (destruct H as [H|H]; [apply (f_equal fst) in H; cbn in H; discriminate H|]); destruct H.
(** A macro with one set of rules, and one without. *)
Lemma done_rules E meaning name c vs s r rs :
  (forall rs', In (name, rs') eager_rules <-> rs' = rs) ->
  (meaning E (c_node c) vs (visible s) r \/ refused rs (c_node c) vs r) <-> done E meaning name c vs s r.
Proof.
  intros H. unfold done. split.
  - intros [M|R]; [auto|]. right. exists rs. split; [apply H; reflexivity|exact R].
  - intros [M|[rs' [I R]]]; [auto|]. apply H in I. subst. auto.
Qed.
Lemma done_free E meaning name c vs s r :
  (forall rs', ~ In (name, rs') eager_rules) ->
  meaning E (c_node c) vs (visible s) r <-> done E meaning name c vs s r.
Proof.
  intros H. unfold done. split; [auto|]. intros [M|[rs' [I R]]]; [auto|]. exfalso. exact (H _ I).
Qed.

(** Which rules a name has. *)
Definition rules_of (name : bytes) : option rules := assoc name eager_rules.
Lemma rules_of_in name rs : In (name, rs) eager_rules <-> rules_of name = Some rs.
Proof.
  split.
  - intros H. cbn in H. repeat (destruct H as [H|H]; [inversion H; subst; reflexivity|]). destruct H.
  - unfold rules_of. generalize eager_rules. induction l as [|[k x] l IH]; cbn; [discriminate|].
    destruct (beq name k) eqn:B; intros H; [|auto]. apply beq_eq in B. inversion H; subst. auto.
Qed.

Lemma values_meaning E name meaning : In (name, meaning) on_values ->
  exists m, find_builtin name = Some m /\ strict m = true /\
  forall c vs s r, done E meaning name c vs s r <-> r = seen (finish E m c vs s).
Proof.
  intros H. cbn in H.
  assert (W : forall name rs m meaning, rules_of name = Some rs -> find_builtin name = Some m -> strict m = true ->
    (forall c vs s r, (meaning E (c_node c) vs (visible s) r \/ refused rs (c_node c) vs r) <-> r = seen (finish E m c vs s)) ->
    exists m, find_builtin name = Some m /\ strict m = true /\
    forall c vs s r, done E meaning name c vs s r <-> r = seen (finish E m c vs s)).
  { intros nm rs m me R F S K. exists m. split; [exact F|]. split; [exact S|]. intros c vs s r. rewrite <- K.
    symmetry. apply done_rules. intros rs'. rewrite rules_of_in, R. split; congruence. }
  assert (F : forall name m meaning, rules_of name = None -> find_builtin name = Some m -> strict m = true ->
    (forall c vs s r, meaning E (c_node c) vs (visible s) r <-> r = seen (finish E m c vs s)) ->
    exists m, find_builtin name = Some m /\ strict m = true /\
    forall c vs s r, done E meaning name c vs s r <-> r = seen (finish E m c vs s)).
  { intros nm m me R F S K. exists m. split; [exact F|]. split; [exact S|]. intros c vs s r. rewrite <- K.
    symmetry. apply done_free. intros rs' I. apply rules_of_in in I. congruence. }
  repeat (destruct H as [H|H]; [inversion H; subst; clear H|]); [..|destruct H].
  - eapply F; try reflexivity. intros. apply fin_do.
  - eapply W; try reflexivity. intros. apply fin_get.
  - eapply F; try reflexivity. intros. apply fin_text. reflexivity.
  - eapply F; try reflexivity. intros. apply fin_text. reflexivity.
  - eapply W; try reflexivity. intros. apply fin_convert. reflexivity.
  - eapply W; try reflexivity. intros. apply fin_convert. reflexivity.
  - eapply F; try reflexivity. intros. apply fin_embed.
  - eapply W; try reflexivity. intros. apply fin_markdown.
  - eapply W; try reflexivity. intros. apply fin_yaml.
  - eapply W; try reflexivity. intros. apply fin_yaml.
  - eapply W; try reflexivity. intros. apply fin_toml.
  - eapply W; try reflexivity. intros. apply fin_glob.
  - eapply W; try reflexivity. intros. apply fin_reverse.
  - eapply W; try reflexivity. intros. apply fin_date.
  - eapply W; try reflexivity. intros. apply fin_timestamp.
  - eapply W; try reflexivity. intros. apply fin_join.
  - eapply W; try reflexivity. intros. apply fin_concat.
  - eapply F; try reflexivity. intros. apply fin_splat.
  - eapply F; try reflexivity. intros. apply fin_list.
  - eapply F; try reflexivity. intros. apply fin_strip.
  - eapply F; try reflexivity. intros. apply fin_log.
  - eapply F; try reflexivity. intros. apply fin_format.
  - eapply F; try reflexivity. intros. apply fin_env.
Qed.

Lemma find_builtin_in name m : find_builtin name = Some m -> In (name, m) builtins.
Proof.
  unfold find_builtin. generalize builtins. induction l as [|[k x] l IH]; cbn; [discriminate|].
  destruct (beq name k) eqn:B; intros H; [|auto]. apply beq_eq in B. inversion H; subst. auto.
Qed.
Lemma strict_meaning name m : find_builtin name = Some m -> strict m = true ->
  exists meaning, In (name, meaning) on_values.
Proof.
  intros F S. apply find_builtin_in in F. cbn in F.
  repeat (destruct F as [F|F]; [inversion F; subst; clear F; try discriminate S|]); [..|destruct F];
    eexists; cbn; repeat (first [left; reflexivity | right]).
Qed.

(** The order of hash maps does not matter to them. *)
Lemma finish_order E o m c vs s : strict m = true -> finish (with_order o E) m c vs s = finish E m c vs s.
Proof. intros S. destruct m; try discriminate S; reflexivity. Qed.

(** They make no hash maps that count, and always come to an end. *)
Lemma touch_seed c s : g_seed (x_world (touch c s)) = g_seed (x_world s).
Proof. unfold touch. destruct (_ =? _); reflexivity. Qed.
Lemma set_seed d s : g_seed (x_world (set_defs d s)) = g_seed (x_world s).
Proof. reflexivity. Qed.
Lemma log_seed st t s : g_seed (x_world (log_line st t s)) = g_seed (x_world s).
Proof. reflexivity. Qed.
Lemma front_seed E c a sep s q s1 : frontmatter E c a sep s = Ok (q, s1) -> g_seed (x_world s1) = g_seed (x_world s).
Proof.
  unfold frontmatter. destruct (e_front E (a_val a)) as [[t|t|]|].
  - destruct (expand_yaml E t sep (call_site c) (x_defs s)) as [[x d]| | | |]; cbn [bind]; intros H; inversion H; reflexivity.
  - destruct (expand_toml E t sep (call_site c) (x_defs s)). intros H; inversion H; reflexivity.
  - intros H; inversion H; reflexivity.
  - intros H; inversion H; reflexivity.
Qed.

Definition level (s : state) (r : out) : Prop :=
  forall ns s1, r = Ok (ns, s1) -> g_seed (x_world s1) = g_seed (x_world s).
Lemma level_bind {X} s (r : res X) k : (forall x, r = Ok x -> level s (k x)) -> level s (bind r k).
Proof. intros H. destruct r; cbn [bind]; [apply H; reflexivity|intros ? ? Q; discriminate Q..]. Qed.
Lemma level_ok s ns s1 : g_seed (x_world s1) = g_seed (x_world s) -> level s (Ok (ns, s1)).
Proof. intros H ns' s' Q. inversion Q; subst. exact H. Qed.
Lemma level_error s k st : level s (error k st).
Proof. intros ? ? Q. discriminate Q. Qed.
Lemma level_panic s p : level s (Panic p).
Proof. intros ? ? Q. discriminate Q. Qed.

Ltac seeds :=
  cbv zeta;
  lazymatch goal with
  | |- level _ (Ok (_, _)) => apply level_ok; rewrite ?touch_seed, ?set_seed, ?log_seed, ?touch_seed; auto
  | |- level _ (error _ _) => apply level_error
  | |- level _ (Panic _) => apply level_panic
  | |- level _ (bind _ _) => apply level_bind; intros ? ?; seeds
  | |- level _ (match ?x with _ => _ end) => destruct x eqn:?; seeds
  end.

Lemma finish_seed E m c vs s : strict m = true -> level s (finish E m c vs s).
Proof.
  intros S. unfold finish. destruct m; try discriminate S; cbn [run_builtin];
    unfold do_do, do_get, do_text, do_convert, do_embed, do_markdown, do_yaml, do_toml, do_glob, do_reverse,
      do_date, do_timestamp, do_join, do_concat, do_splat, do_list, do_strip, do_log, do_format, do_env, eager;
    rewrite still_exs; cbn [bind]; try (destruct (arguments _ _ _); cbn [bind]; try (intros ? ? Q; discriminate Q)); try (seeds; fail).
  - seeds; cbn in *; subst; repeat match goal with H : frontmatter _ _ _ _ _ = _ |- _ => apply front_seed in H; rewrite touch_seed in H end; auto.
Qed.

Lemma fails_fuel {A B} (q : res A) : ~ fails q (@OutOfFuel B).
Proof. destruct q; cbn; try exact (fun H => H); try discriminate. Qed.
Lemma refused_fuel {A} rs n vs : ~ refused rs n vs (@OutOfFuel A).
Proof. intros [k [st [H _]]]. discriminate. Qed.

Lemma strict_named m : strict m = true -> exists name meaning, find_builtin name = Some m /\ In (name, meaning) on_values.
Proof.
  intros S.
  assert (F : exists name, find_builtin name = Some m).
  { destruct m; try discriminate S;
      [exists (b "do")|exists (b "get")|exists (b "raw")|exists (b "string")|exists (b "number")|exists (b "symbol")
      |exists (b "embed")|exists (b "markdown")|exists (b "yaml")|exists (b "toml")|exists (b "glob")|exists (b "reverse")
      |exists (b "date")|exists (b "timestamp")|exists (b "join")|exists (b "concat")|exists (b "splat")|exists (b "list")
      |exists (b "strip")|exists (b "log")|exists (b "format")|exists (b "os/env")]; reflexivity. }
  destruct F as [name F]. destruct (strict_meaning name m F S) as [me I]. eauto.
Qed.

Lemma meaning_fuel E name meaning n vs c : In (name, meaning) on_values -> ~ meaning E n vs c OutOfFuel.
Proof.
  intros H M. cbn in H.
  repeat (destruct H as [H|H]; [apply (f_equal snd) in H; cbn in H; subst meaning; inversion M; subst; eauto using fails_fuel|]);
    try destruct H;
    try match goal with H : fails ?q OutOfFuel |- _ => exact (fails_fuel q H) end.
  all: try match goal with H : html _ _ _ _ _ OutOfFuel |- _ => inversion H end.
  all: try match goal with H : lists _ _ _ _ _ _ OutOfFuel |- _ => inversion H end.
Qed.

Lemma finish_fuel E m c vs s : strict m = true -> finish E m c vs s <> OutOfFuel.
Proof.
  intros S F. destruct (strict_named m S) as [name [me [N I]]].
  destruct (values_meaning E name me I) as [m' [N' [_ H]]]. assert (m' = m) by congruence. subst m'.
  assert (D : done E me name c vs s OutOfFuel) by (apply H; rewrite F; reflexivity).
  destruct D as [D|[rs [_ D]]]; [exact (meaning_fuel E name me _ _ _ I D)|exact (refused_fuel _ _ _ D)].
Qed.
