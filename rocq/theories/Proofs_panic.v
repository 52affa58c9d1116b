(** * Proofs: what makes an expansion panic or hang *)

From Coq Require Import String List Ascii Bool Arith NArith ZArith Lia Permutation.
From Verif Require Import Text Utf8 Res Ast Args Env Scope State Bind Data Paths Sorting Parser Expander Numbers
  Spec_grammar Spec_args Spec_expand Spec_builtin Spec_bind Spec_control Spec_sort Spec_scope Spec_data Spec_world Spec_keep
  Spec_panic Proofs_text Proofs_ast Proofs_parser Proofs_run Proofs_eval Proofs_args Proofs_builtin Proofs_bind Proofs_sort
  Proofs_scope Proofs_data Proofs_world Proofs_import.
From Verif Require Import Args Proofs_macros Expander.
Import ListNotations.

Section WithEnv.
Variable E : env.
Hypothesis ORDER : forall seed l, Permutation (e_order E seed l) l.
Hypothesis TEXT : reads_text E.

Definition calm {A} (r : res A) : Prop :=
  match r with Panic p => cause E p | Hang => stuck E | _ => True end.

Lemma calm_bind {A B} (r : res A) (k : A -> res B) :
  calm r -> (forall x, r = Ok x -> calm (k x)) -> calm (bind r k).
Proof. destruct r; cbn; auto. Qed.
Lemma tame_calm {A} (r : res A) : tame r -> calm r.
Proof. intros [[x ->]|[e ->]]; exact I. Qed.
Lemma calm_error {A} k st : calm (@error A k st).
Proof. exact I. Qed.

(** ** Data *)

Lemma y_event_panics sep st e k defs p : y_event sep st e k defs = Panic p -> p = PUnwrap \/ p = PExplicit.
Proof.
  destruct e; cbn [y_event]; try discriminate.
  - destruct (y_defining k), (y_mode k) as [[]|]; intros H; inversion H; auto.
  - unfold y_end. destruct (y_modes k) as [|[] ?], (y_parent k), (pop_prefix (y_prefix k)) as [[] ?];
      intros H; inversion H; auto.
  - unfold y_end. destruct (y_modes k) as [|[] ?], (y_parent k), (pop_prefix (y_prefix k)) as [[] ?];
      intros H; inversion H; auto.
Qed.
Lemma y_event_else sep st e k defs :
  (exists x, y_event sep st e k defs = Ok x) \/ exists p, y_event sep st e k defs = Panic p.
Proof.
  destruct e; cbn [y_event]; eauto.
  - destruct (y_defining k), (y_mode k) as [[]|]; eauto.
  - unfold y_end. destruct (y_modes k) as [|[] ?], (y_parent k), (pop_prefix (y_prefix k)) as [[] ?]; eauto.
  - unfold y_end. destruct (y_modes k) as [|[] ?], (y_parent k), (pop_prefix (y_prefix k)) as [[] ?]; eauto.
Qed.
Lemma y_events_cases sep st es : forall k defs,
  (exists x, y_events sep st es k defs = Ok x) \/
  exists p, y_events sep st es k defs = Panic p /\ (p = PUnwrap \/ p = PExplicit).
Proof.
  induction es as [|e es IH]; intros k defs; cbn [y_events]; [eauto|].
  destruct (y_event_else sep st e k defs) as [[[k1 d1] H]|[p H]]; rewrite H; cbn [bind]; [apply IH|].
  right. exists p. split; [reflexivity|]. eapply y_event_panics, H.
Qed.

Lemma calm_yaml text sep st defs : calm (expand_yaml E text sep st defs).
Proof.
  unfold expand_yaml. destruct (e_yaml E text) as [es ok] eqn:Y.
  destruct (y_events_cases sep st es sink_new defs) as [[[k d] H]|[p [H P]]]; rewrite H; cbn [bind calm]; [exact I|].
  eapply cause_yaml; eauto. intros [rest [d [C T]]].
  assert (S : succeeded (y_events sep st (content es ++ rest) sink_new defs) = true).
  { rewrite C. destruct (yaml_document sep st (events d) d defs (content_of_events d) T) as [k [defs' [-> _]]]. reflexivity. }
  apply events_prefix in S. rewrite <- content_events, H in S. discriminate.
Qed.

(** ** Arguments *)

Section Fields.
Variables (rs : rules) (c : node) (ps : list node) (x : args).
Hypothesis W : well_formed rs.
Hypothesis X : arguments rs c ps = Ok x.

Lemma must_given pos r t : rule_for rs pos r -> r_arg r = Mandatory t -> exists n, given pos ps = Some n.
Proof.
  intros R M. destruct (arguments_ok rs c ps x W X) as [A _]. apply (accepted_alt _ _ W) in A as [_ [_ A]].
  specialize (A pos r t R M). destruct (given pos ps); [eauto|congruence].
Qed.
Lemma atom_ok pos r t : rule_for rs pos r -> r_arg r = Mandatory t -> atom_type t = true ->
  exists a, need as_atom pos x = Ok a.
Proof.
  intros R M T. destruct (must_given pos r t R M) as [n G]. destruct (field _ _ _ _ W X pos r n R G) as [v [V P]].
  rewrite M in P. cbn in P. unfold need. rewrite V. destruct t; try discriminate T; destruct P as [a [_ ->]]; cbn; eauto.
Qed.
Lemma node_ok pos r t : rule_for rs pos r -> r_arg r = Mandatory (TAny t) -> exists n, need as_node pos x = Ok n.
Proof.
  intros R M. destruct (must_given pos r _ R M) as [n G]. exists n.
  apply (need_node _ _ _ _ W X pos r n t R G). rewrite M. reflexivity.
Qed.
Lemma list_ok pos r t : rule_for rs pos r -> r_arg r = Mandatory (TList t) ->
  exists l n, need as_list pos x = Ok l /\ given pos ps = Some n /\ list_of n = Some l.
Proof.
  intros R M. destruct (must_given pos r _ R M) as [n G]. destruct (field _ _ _ _ W X pos r n R G) as [v [V P]].
  rewrite M in P. cbn in P. destruct P as [l [L ->]]. exists l, n. unfold need. rewrite V. auto.
Qed.
End Fields.

(** ** Builtins *)

Section Builtins.
Variable ex : node -> state -> out.
Variable inv : bytes -> call -> list node -> state -> out.
Hypothesis EX : forall n s, calm (ex n s).
Definition of_list (c : call) : Prop := exists l st ew es w, c_node c = Lst l st ew es w.
Hypothesis INV : forall name c ps s, of_list c -> calm (inv name c ps s).

Lemma calm_exs ns : forall s, calm (exs ex ns s).
Proof.
  induction ns as [|n ns IH]; intros s; cbn [exs]; [exact I|].
  apply calm_bind; [apply EX|]. intros [xs s1] _. apply calm_bind; [apply IH|]. intros [ys s2] _. exact I.
Qed.

Lemma calm_eager rs c ps s (k : args * list node * state -> out) : well_formed rs ->
  (forall x vs s1, arguments rs (c_node c) vs = Ok x -> accepted rs vs -> calm (k (x, vs, touch c s1))) ->
  calm (bind (eager ex rs c ps s) k).
Proof.
  intros W H. unfold eager. pose proof (calm_exs ps s) as C.
  destruct (exs ex ps s) as [[vs s1]| | | |]; cbn [bind]; try exact C.
  destruct (arguments_cases rs (c_node c) vs W) as [[A [x X]]|[A [e X]]]; rewrite X; cbn [bind]; [|exact I].
  apply H; assumption.
Qed.

Lemma calm_frame {A} (m : state -> res (A * state)) s : (forall s, calm (m s)) -> calm (in_frame m s).
Proof. intros H. unfold in_frame. apply calm_bind; [apply H|]. intros [x s1] _. exact I. Qed.

Lemma calm_create name ps body s : calm (create_macro name ps body s).
Proof.
  unfold create_macro. destruct (List.filter amp ps) as [|? [|? ?]]; try exact I;
    destruct (List.filter ampamp ps) as [|? [|? ?]]; exact I.
Qed.

Lemma calm_bind_node p v s : calm (bind_node E p v s).
Proof. apply tame_calm. apply (bind_node_spec E ORDER p). Qed.
Lemma calm_bind_list st ps vs s : calm (bind_list E st ps vs s).
Proof.
  apply tame_calm. apply (bind_list_spec E ORDER). apply Forall_forall. intros p _. apply (bind_node_spec E ORDER).
Qed.

Ltac step := first
  [ exact I | apply calm_error | apply EX | apply calm_exs | apply calm_create | apply calm_bind_node | apply calm_bind_list
  | apply calm_frame; intros ?
  | match goal with |- calm (bind _ _) => apply calm_bind; [|intros ? ?] end
  | match goal with |- calm (match ?x with _ => _ end) => destruct x eqn:? end
  | match goal with x : prod _ _ |- _ => destruct x end ].
Ltac steps := repeat step.

Lemma calm_define c ps s : calm (do_define ex c ps s).
Proof. unfold do_define. steps. Qed.
Lemma calm_clauses v cs : forall s, calm (match_clauses E ex v cs s).
Proof.
  induction cs as [|cl cs IH]; intros s; cbn [match_clauses]; [exact I|].
  steps. apply IH.
Qed.
Lemma calm_match c ps s : calm (do_match E ex c ps s).
Proof. unfold do_match. steps. apply calm_clauses. Qed.
Lemma calm_ifdef c ps s : calm (do_ifdef ex c ps s).
Proof. unfold do_ifdef. steps. Qed.

Lemma search_read sex path : forall dirs p t, search_file E sex dirs path = Some (p, t) -> e_read E p = Some t.
Proof.
  induction dirs as [|d dirs IH]; intros p t; cbn [search_file]; [discriminate|].
  destruct (e_read E (path_join d path)) eqn:R; [intros H; inversion H; subst; exact R|].
  destruct sex; [|apply IH]. destruct (with_sex _) as [q|]; [|apply IH].
  destruct (e_read E q) eqn:R2; [intros H; inversion H; subst; exact R2|apply IH].
Qed.
Lemma calm_include c ps s : calm (do_include E ex c ps s).
Proof.
  unfold do_include. steps.
  pose proof (search_read _ _ _ _ _ Heqo0) as R. pose proof (TEXT _ _ R) as U.
  match goal with H : parse _ ?id ?t = Panic _ |- _ => pose proof (parse_returns (e_unescape E) id t U) as P; rewrite H in P; destruct P end.
  pose proof (search_read _ _ _ _ _ Heqo0) as R. pose proof (TEXT _ _ R) as U.
  match goal with H : parse _ ?id ?t = Hang |- _ => pose proof (parse_returns (e_unescape E) id t U) as P; rewrite H in P end.
  eexists _, _. split; [exact R|exact P].
Qed.
Lemma calm_embed c ps s : calm (do_embed E ex c ps s).
Proof. unfold do_embed. steps. Qed.

Lemma calm_front c a sep s : calm (frontmatter E c a sep s).
Proof.
  unfold frontmatter. destruct (e_front E (a_val a)) as [[t|t|]|]; try exact I.
  - apply calm_bind; [apply calm_yaml|]. intros [r d] _. exact I.
  - destruct (expand_toml E t sep (call_site c) (x_defs s)). exact I.
Qed.
Lemma front_inner c a sep s q s' : frontmatter E c a sep s = Ok (q, s') -> tame q.
Proof.
  unfold frontmatter. destruct (e_front E (a_val a)) as [[t|t|]|].
  - unfold expand_yaml. destruct (e_yaml E t) as [es ok].
    destruct (y_events sep (call_site c) es sink_new (x_defs s)) as [[k d]| | | |]; cbn; intros H; inversion H.
    destruct ok; cbn; [apply tame_ok|apply tame_err].
  - unfold expand_toml. destruct (e_toml E t) as [tb|]; [destruct (traverse _ _ _ _ _)|]; cbn;
      intros H; inversion H; [apply tame_ok|apply tame_err].
  - intros H. inversion H. apply tame_err.
  - intros H. inversion H. apply tame_err.
Qed.

Lemma yaml_inner text sep st defs q defs' : expand_yaml E text sep st defs = Ok (q, defs') -> tame q.
Proof.
  unfold expand_yaml. destruct (e_yaml E text) as [es ok].
  destruct (y_events sep st es sink_new defs) as [[k d]| | | |]; cbn; intros H; inversion H.
  destruct ok; [apply tame_ok|apply tame_err].
Qed.
Lemma toml_inner text sep st defs q defs' : expand_toml E text sep st defs = (q, defs') -> tame q.
Proof.
  unfold expand_toml. destruct (e_toml E text) as [tb|]; [destruct (traverse _ _ _ _ _)|];
    intros H; inversion H; [apply tame_ok|apply tame_err].
Qed.

Ltac atom_at W X pos r a := let H := fresh in
  destruct (atom_ok _ _ _ _ W X pos r _ ltac:(rule) eq_refl eq_refl) as [a H]; rewrite H; clear H; cbn [bind].
Ltac want_at W X pos r :=
  rewrite (want_atom _ _ _ _ W X pos r ltac:(rule) eq_refl); cbn [bind].

Lemma calm_markdown c ps s : calm (do_markdown E ex c ps s).
Proof.
  unfold do_markdown. apply calm_eager; [exact wf_markdown|]. intros x vs s1 X A.
  atom_at wf_markdown X (PInt 1) (mandatory 1 (TString [])) a.
  want_at wf_markdown X (PStr (b "only")) (option_named (b "only") (TLiteral (one_of [b "frontmatter"; b "content"]))).
  want_at wf_markdown X (PStr (b "separator")) (option_named (b "separator") lit).
  cbn [given]. set (sep := val_or _ _).
  assert (H : calm (match e_html E (a_val a) with
    | Some html => Ok [Raw (here c html)] | None => error EMarkdown (a_site a) end)) by (destruct (e_html E (a_val a)); exact I).
  assert (F : forall s, calm (bind (frontmatter E c a sep s) (fun '(_, s0) =>
    let* ns := match e_html E (a_val a) with
    | Some html => Ok [Raw (here c html)] | None => error EMarkdown (a_site a) end in Ok (ns, touch c s0)))).
  { intros s2. apply calm_bind; [apply calm_front|]. intros [q s3] _. apply calm_bind; [exact H|]. intros; exact I. }
  apply accepted_markdown in A as [p [a' [_ [_ O]]]].
  destruct (keyword_value (b "only") vs) as [v|] eqn:K; cbn [option_map]; [|apply F].
  apply keyword_in in K as [st [w I0]]. destruct (O _ _ _ _ I0) as [[Q _]|[_ [o [-> J]]]]; [discriminate|].
  cbn [option_map]. destruct J as [<-|[<-|[]]]; cbv beta iota.
  - replace (beq (b "frontmatter") (b "frontmatter")) with true by reflexivity.
    apply calm_bind; [apply calm_front|]. intros [q s3] Q. apply calm_bind; [apply tame_calm; eapply front_inner, Q|].
    intros; exact I.
  - replace (beq (b "content") (b "frontmatter")) with false by reflexivity.
    replace (beq (b "content") (b "content")) with true by reflexivity.
    apply calm_bind; [exact H|]. intros; exact I.
Qed.

Lemma calm_do_yaml c ps s : calm (do_yaml E ex c ps s).
Proof.
  unfold do_yaml. apply calm_eager; [exact wf_yaml|]. intros x vs s1 X A.
  atom_at wf_yaml X (PInt 1) (mandatory 1 (TString [])) a.
  want_at wf_yaml X (PStr (b "separator")) (option_named (b "separator") lit).
  apply calm_bind; [apply calm_yaml|]. intros [q d] Q. apply calm_bind; [apply tame_calm; eapply yaml_inner, Q|].
  intros; exact I.
Qed.
Lemma calm_do_toml c ps s : calm (do_toml E ex c ps s).
Proof.
  unfold do_toml. apply calm_eager; [exact wf_yaml|]. intros x vs s1 X A.
  atom_at wf_yaml X (PInt 1) (mandatory 1 (TString [])) a.
  want_at wf_yaml X (PStr (b "separator")) (option_named (b "separator") lit).
  destruct (expand_toml _ _ _ _ _) as [q d] eqn:Q. apply calm_bind; [apply tame_calm; eapply toml_inner, Q|].
  intros; exact I.
Qed.

Lemma tame_get_path path : forall n, tame (get_path path n).
Proof.
  induction path as [|i path IH]; intros n; cbn [get_path]; [apply tame_ok|].
  apply tame_bind; [|intros; apply IH]. unfold get_item, error. destruct (list_of n) as [view|]; [|apply tame_err].
  destruct (match parse_usize i with Some _ => _ | None => _ end); [apply tame_ok|].
  destruct (find_attr i view); [apply tame_ok|apply tame_err].
Qed.
Lemma calm_get c ps s : calm (do_get ex c ps s).
Proof.
  unfold do_get. apply calm_eager; [exact wf_get|]. intros x vs s1 X A.
  atom_at wf_get X (PInt 1) (mandatory 1 lit) a.
  destruct (node_ok _ _ _ _ wf_get X (PInt 2) (mandatory 2 (TAny [])) [] ltac:(rule) eq_refl) as [n ->]. cbn [bind].
  want_at wf_get X (PStr (b "separator")) (option_named (b "separator") lit).
  apply calm_bind; [apply tame_calm, tame_get_path|]. intros; exact I.
Qed.

Lemma calm_zone o : calm (timezone E o).
Proof.
  destruct o as [a|]; [|exact I]. destruct (e_fixed E (a_val a)) as [h|] eqn:F; [|cbn; rewrite F; exact I].
  destruct (timezone_given E a h F) as [A B].
  assert (D : representable h \/ ~ representable h) by (unfold representable; lia).
  destruct D as [D|D]; [destruct (A D) as [r [-> _]]; exact I|]. rewrite (B D). eapply cause_zone; eauto.
Qed.
Lemma calm_date c ps s : calm (do_date E ex c ps s).
Proof.
  unfold do_date. apply calm_eager; [exact wf_date|]. intros x vs s1 X A.
  atom_at wf_date X (PInt 1) (mandatory 1 lit) a.
  want_at wf_date X (PInt 2) (optional 2 (TNumber [])).
  want_at wf_date X (PStr (b "timezone")) (option_named (b "timezone") (TNumber [])).
  apply calm_bind; [apply calm_zone|]. intros off _. apply calm_bind; [steps|]. intros t _.
  destruct (east_ok off) eqn:D; [|exact I]. apply east_within in D.
  destruct (e_date E t off (a_val a)) eqn:F; [exact I|]. eapply cause_format; eauto.
Qed.
Lemma calm_timestamp c ps s : calm (do_timestamp E ex c ps s).
Proof.
  unfold do_timestamp. apply calm_eager; [exact wf_timestamp|]. intros x vs s1 X A.
  atom_at wf_timestamp X (PInt 1) (mandatory 1 lit) a.
  atom_at wf_timestamp X (PInt 2) (mandatory 2 lit) a2.
  want_at wf_timestamp X (PStr (b "timezone")) (option_named (b "timezone") (TNumber [])).
  apply calm_bind; [apply calm_zone|]. intros off _. steps.
Qed.

Lemma calm_log c ps s : calm (do_log ex c ps s).
Proof. unfold do_log. steps. Qed.
Lemma calm_env c ps s : calm (do_env E ex c ps s).
Proof. unfold do_env. steps. Qed.
Lemma calm_format c ps s : calm (do_format E ex c ps s).
Proof. unfold do_format. steps. Qed.

Lemma tame_namespace_options ns : forall sep, tame (namespace_options sep ns).
Proof.
  induction ns as [|n ns IH]; intros sep; cbn [namespace_options]; [apply tame_ok|].
  destruct n; try apply tame_ok. destruct (beq _ _); [|apply tame_err]. destruct (atomic n); [apply IH|apply tame_err].
Qed.
Lemma calm_namespace c ps s : calm (do_namespace E ex c ps s).
Proof.
  unfold do_namespace. apply calm_bind; [apply calm_frame, calm_exs|]. intros [[ns d] s1] _.
  destruct ns as [|n ns]; [exact I|]. destruct (atomic n); [|exact I].
  apply calm_bind; [apply tame_calm, tame_namespace_options|]. intros [sep body] _. exact I.
Qed.

Lemma calm_for_each p body items : forall s, calm (for_each E ex p items body s).
Proof.
  induction items as [|i items IH]; intros s; cbn [for_each]; [exact I|].
  apply calm_bind; [apply calm_bind_node|]. intros s1 _. apply calm_bind; [apply calm_exs|]. intros [xs s2] _.
  apply calm_bind; [apply IH|]. intros [ys s3] _. exact I.
Qed.
Lemma calm_for c ps s : calm (do_for E ex c ps s).
Proof.
  unfold do_for. destruct (arguments_cases rules_for (c_node c) ps wf_for) as [[A [x X]]|[A [e X]]]; rewrite X; cbn [bind]; [|exact I].
  destruct (node_ok _ _ _ _ wf_for X (PInt 1) (mandatory 1 (TAny [])) [] ltac:(rule) eq_refl) as [p ->]. cbn [bind].
  destruct (list_ok _ _ _ _ wf_for X (PInt 3) (mandatory 3 (TList [])) [] ltac:(rule) eq_refl) as [l [n [-> _]]]. cbn [bind].
  rewrite (rest_nodes _ _ _ _ wf_for X [] eq_refl). cbn [bind].
  apply calm_bind; [apply calm_exs|]. intros [items s1] _. apply calm_bind; [apply calm_frame; intros; apply calm_for_each|].
  intros [[ns d] s2] _. exact I.
Qed.

Lemma calm_collect pat t k l all : e_glob E pat = Some all -> (forall p, In (Some (p, None)) l -> In (Some (p, None)) all) ->
  calm (glob_collect E t k l).
Proof.
  intros G S. unfold glob_collect. apply calm_bind; [|intros; exact I].
  induction l as [|x l IH]; cbn [glob_entries]; [exact I|].
  destruct x as [[p [m|]]|]; [|eapply cause_metadata; [exact G|apply S; left; reflexivity]|exact I].
  apply calm_bind; [apply IH; intros q I0; apply S; right; exact I0|intros; exact I].
Qed.
Lemma calm_glob c ps s : calm (do_glob E ex c ps s).
Proof.
  unfold do_glob. apply calm_eager; [exact wf_glob|]. intros x vs s1 X A.
  atom_at wf_glob X (PInt 1) (mandatory 1 lit) a.
  want_at wf_glob X (PStr (b "type")) (option_named (b "type") (TLiteral (one_of [b "file"; b "directory"; b "any"]))).
  want_at wf_glob X (PStr (b "sort")) (option_named (b "sort") (TLiteral (one_of [b "modified"; b "created"; b "name"; b "type"; b "none"]))).
  want_at wf_glob X (PStr (b "order")) (option_named (b "order") (TLiteral (one_of [b "ascending"; b "descending"]))).
  apply accepted_glob in A as [p [_ [_ O]]]. cbn [given].
  match goal with |- calm (bind ?q ?k) => assert (T : tame q) end.
  { destruct (keyword_value (b "type") vs) as [v|] eqn:K; [|apply tame_ok]. apply keyword_in in K as [st [w I0]].
    destruct (O _ _ _ _ I0) as [[_ [o [-> J]]]|[[Q _]|[Q _]]]; [|discriminate|discriminate].
    cbn [option_map]. destruct J as [<-|[<-|[<-|[]]]]; apply tame_ok. }
  apply calm_bind; [apply tame_calm, T|]. intros t _. clear T.
  match goal with |- calm (bind ?q ?k) => assert (T : tame q) end.
  { destruct (keyword_value (b "sort") vs) as [v|] eqn:K; [|apply tame_ok]. apply keyword_in in K as [st [w I0]].
    destruct (O _ _ _ _ I0) as [[Q _]|[[_ [o [-> J]]]|[Q _]]]; [discriminate| |discriminate].
    cbn [option_map]. destruct J as [<-|[<-|[<-|[<-|[<-|[]]]]]]; apply tame_ok. }
  apply calm_bind; [apply tame_calm, T|]. intros k _.
  destruct (e_glob E (a_val a)) as [l|] eqn:G; [|exact I].
  apply calm_bind; [eapply calm_collect; [exact G|auto]|]. intros o _. destruct o; exact I.
Qed.

Lemma calm_text make k c ps s : calm (do_text ex make k c ps s).
Proof. unfold do_text. steps. Qed.
Lemma calm_convert make c ps s : calm (do_convert ex make c ps s).
Proof.
  unfold do_convert. apply calm_eager; [exact wf_literals|]. intros x vs s1 X A.
  destruct (rest_atoms _ _ _ _ wf_literals X lit eq_refl eq_refl) as [l [-> _]]. exact I.
Qed.
Lemma calm_reverse c ps s : calm (do_reverse ex c ps s).
Proof.
  unfold do_reverse. apply calm_eager; [exact wf_reverse|]. intros x vs s1 X A.
  destruct (list_ok _ _ _ _ wf_reverse X (PInt 1) (mandatory 1 (TList [])) [] ltac:(rule) eq_refl) as [l [n [-> [G L]]]]. cbn [bind].
  apply (accepted_alt _ _ wf_reverse) in A as [A [B _]].
  assert (P : forall k v st w, ~ In (Attr k v st w) vs).
  { intros k v st w J. destruct (B _ _ _ _ J) as [t [Q _]]. discriminate. }
  destruct vs as [|v vs]; [discriminate|]. destruct v as [| | | | |k v st w]; try exact I;
    [..|exfalso; eapply P; left; reflexivity].
  all: cbn in G; inversion G; subst; discriminate.
Qed.

Lemma calm_keys name c kst ns : of_list c -> forall s, calm (sort_keys inv name c kst ns s).
Proof.
  intros L. induction ns as [|n ns IH]; intros s; cbn [sort_keys]; [exact I|].
  apply calm_bind.
  - pose proof (INV name c [n] s L) as H. destruct (inv name c [n] s); exact H || exact I.
  - intros [key s1] _. destruct key as [|k [|? ?]]; try exact I. destruct (atomic k); [|exact I].
    apply calm_bind; [apply IH|]. intros [items s2] _. exact I.
Qed.
Lemma calm_sort c ps s : of_list c -> calm (do_sort E ex inv c ps s).
Proof.
  intros L. unfold do_sort. apply calm_eager; [exact wf_sort|]. intros x vs s1 X A.
  destruct (node_ok _ _ _ _ wf_sort X (PInt 1) (mandatory 1 (TAny [])) [] ltac:(rule) eq_refl) as [n ->]. cbn [bind].
  want_at wf_sort X (PStr (b "order")) (option_named (b "order") (TLiteral (one_of [b "ascending"; b "descending"]))).
  want_at wf_sort X (PStr (b "key")) (option_named (b "key") (TSymbol [])).
  destruct n; try exact I. apply calm_bind; [apply calm_keys, L|]. intros [items s2] _.
  apply calm_bind; [|intros; exact I].
  match goal with |- context [sort_by E ?cmp items] => set (order := cmp) end.
  assert (CM : exists d, order = Spec_sort.by_key E d).
  { subst order. destruct (beq _ _); [exists false|exists true]; reflexivity. }
  destruct CM as [d CM]. clearbody order. subst order.
  destruct (sort_by E (Spec_sort.by_key E d) items) as [l'|e|p| |] eqn:SB; try exact I; apply sort_by_iff in SB.
  - assert (p = PSortOrder) by (inversion SB; reflexivity). subst p. exact (cause_order E d items SB).
  - inversion SB.
Qed.

Lemma calm_join c ps s : calm (do_join ex c ps s).
Proof.
  unfold do_join. apply calm_eager; [exact wf_join|]. intros x vs s1 X A.
  atom_at wf_join X (PInt 1) (mandatory 1 lit) a.
  want_at wf_join X (PStr (b "trailing")) (option_named (b "trailing") (TLiteral (one_of [b "true"; b "false"]))).
  destruct (rest_atoms _ _ _ _ wf_join X lit eq_refl eq_refl) as [l [-> _]]. exact I.
Qed.
Lemma calm_concat c ps s : calm (do_concat ex c ps s).
Proof.
  unfold do_concat. apply calm_eager; [exact wf_literals|]. intros x vs s1 X A.
  destruct (rest_atoms _ _ _ _ wf_literals X lit eq_refl eq_refl) as [l [-> _]]. exact I.
Qed.
Lemma calm_map_each d name c ns : of_list c -> forall s, calm (map_each inv d name c ns s).
Proof.
  intros L. induction ns as [|n ns IH]; intros s; cbn [map_each]; [exact I|].
  apply calm_bind; [apply INV, L|]. intros [xs s1] _. apply calm_bind; [apply IH|]. intros [ys s2] _. exact I.
Qed.
Lemma calm_map d c ps s : of_list c -> calm (do_map ex inv d c ps s).
Proof.
  intros L. unfold do_map. apply calm_eager; [exact wf_map|]. intros x vs s1 X A.
  atom_at wf_map X (PInt 1) (mandatory 1 (TSymbol [])) a.
  rewrite (rest_nodes _ _ _ _ wf_map X [] eq_refl). cbn [bind]. apply calm_map_each, L.
Qed.
Lemma calm_apply c ps s : of_list c -> calm (do_apply ex inv c ps s).
Proof.
  intros L. unfold do_apply. apply calm_eager; [exact wf_map|]. intros x vs s1 X A.
  atom_at wf_map X (PInt 1) (mandatory 1 (TSymbol [])) a.
  rewrite (rest_nodes _ _ _ _ wf_map X [] eq_refl). cbn [bind]. apply INV, L.
Qed.
Lemma calm_list c ps s : of_list c -> calm (do_list ex c ps s).
Proof.
  intros [l [st [ew [es [w L]]]]]. unfold do_list. apply calm_bind; [apply calm_exs|]. intros [ns s1] _. rewrite L. exact I.
Qed.
Lemma calm_lambda c ps s : calm (do_lambda E c ps s).
Proof.
  unfold do_lambda. destruct (arguments_cases rules_lambda (c_node c) ps wf_lambda) as [[A [x X]]|[A [e X]]]; rewrite X; cbn [bind]; [|exact I].
  destruct (node_ok _ _ _ _ wf_lambda X (PInt 1) (mandatory 1 (TAny [])) [] ltac:(rule) eq_refl) as [p ->]. cbn [bind].
  rewrite (rest_nodes _ _ _ _ wf_lambda X [] eq_refl). cbn [bind]. apply calm_bind; [steps|]. intros l _.
  apply calm_bind; [apply calm_create|]. intros; exact I.
Qed.
Lemma calm_call name c ps s : calm (call_macro E ex name c ps s).
Proof.
  unfold call_macro. apply calm_bind; [apply calm_exs|]. intros [vs s1] _. destruct (get name (x_defs s1)); [|exact I].
  unfold apply_macro. steps.
Qed.

Lemma calm_invoke name c ps s : of_list c -> calm (invoke E ex inv name c ps s).
Proof.
  intros L. unfold invoke. destruct (find_builtin name) as [m|]; [|apply calm_call].
  destruct m; cbn [run_builtin].
  - apply calm_define.
  - apply calm_match.
  - apply calm_ifdef.
  - apply calm_exs.
  - apply calm_get.
  - apply calm_text.
  - apply calm_text.
  - apply calm_convert.
  - apply calm_convert.
  - apply calm_include.
  - apply calm_embed.
  - apply calm_namespace.
  - apply calm_markdown.
  - apply calm_do_yaml.
  - apply calm_do_toml.
  - apply calm_glob.
  - apply calm_for.
  - apply calm_sort, L.
  - apply calm_reverse.
  - apply calm_date.
  - apply calm_timestamp.
  - apply calm_join.
  - apply calm_concat.
  - apply calm_map, L.
  - apply calm_map, L.
  - unfold do_splat. steps.
  - apply calm_list, L.
  - unfold do_strip. steps.
  - apply calm_apply, L.
  - apply calm_lambda.
  - apply calm_log.
  - apply calm_format.
  - apply calm_env.
Qed.

Lemma calm_one n s : calm (expand_one ex inv n s).
Proof.
  destruct n as [a|a|a|a|l st ew es w|k v st w]; try exact I; cbn [expand_one].
  - steps.
  - destruct l as [|h t]; [exact I|].
    assert (P : forall s, calm (let* '(ns, s) := exs ex (h :: t) s in Ok ([Lst ns st ew es w], s))).
    { intros s0. apply calm_bind; [apply calm_exs|]. intros [ns s1] _. exact I. }
    destruct (symbol h) as [a|]; [|apply P]. unfold register.
    destruct (starts_with _ _); [|apply P]. apply INV. do 5 eexists. reflexivity.
  - apply calm_bind; [apply EX|]. intros [ns s1] _. destruct ns; [apply cause_attribute|exact I].
Qed.
End Builtins.

Lemma calm_run f : forall t s,
  match t with TNode _ => True | TInvoke _ c _ => of_list c end -> calm (run E f t s).
Proof.
  induction f as [|f IH]; intros t s L; [exact I|]. cbn [run]. destruct t.
  - apply calm_one; [intros; apply IH; exact I|intros; apply IH; assumption].
  - apply calm_invoke; [intros; apply IH; exact I|intros; apply IH; assumption|exact L].
Qed.

Theorem panic_causes f path text : utf8 text ->
  match expand E f path text with
  | Panic p => cause E p
  | Hang => stuck E \/ Dangling (e_unescape E) text
  | _ => True
  end.
Proof.
  intros U. unfold expand. pose proof (parse_returns (e_unescape E) 0 text U) as P.
  destruct (parse (e_unescape E) 0 text) as [tree|e|p| |]; cbn [bind]; try exact I; try contradiction; [|right; exact P].
  pose proof (calm_exs (expand_node E f) (fun n s => calm_run f (TNode n) s I) tree (initial path text)) as C.
  unfold expand_nodes. destruct (exs _ _ _); try exact C. left. exact C.
Qed.
End WithEnv.

Definition orderly (E : env) : Prop := forall seed l, Permutation (e_order E seed l) l.

Theorem expand_panics E f path text p : orderly E -> reads_text E -> utf8 text ->
  expand E f path text = Panic p -> cause E p.
Proof. intros O R U H. pose proof (panic_causes E O R f path text U) as C. rewrite H in C. exact C. Qed.

Theorem expand_hangs E f path text : orderly E -> reads_text E -> utf8 text ->
  expand E f path text = Hang -> Dangling (e_unescape E) text \/ stuck E.
Proof. intros O R U H. pose proof (panic_causes E O R f path text U) as C. rewrite H in C. tauto. Qed.

Theorem expand_smooth E f path text : orderly E -> reads_text E -> utf8 text ->
  smooth E -> ~ Dangling (e_unescape E) text ->
  match expand E f path text with
  | Panic p => p = PIndex \/ p = PSortOrder
  | Hang => False
  | _ => True
  end.
Proof.
  intros O R U S D. pose proof (panic_causes E O R f path text U) as C.
  destruct (expand E f path text); try exact I.
  - destruct C as [|p t es ok _ Y N|time off fmt _ F|t h F N|pat l p G J|]; auto; exfalso.
    + apply N. eapply (s_yaml E S), Y.
    + exact (s_date E S _ _ _ F).
    + apply N. eapply (s_zone E S), F.
    + exact (s_glob E S _ _ _ G J).
  - destruct C as [[q [t [T D']]]|C]; [|contradiction]. exact (s_read E S _ _ T D').
Qed.

Theorem attribute_panics E k v st w s :
  eval E (Attr k v st w) s (Panic PIndex) <->
  eval E v s (Panic PIndex) \/ exists s', eval E v s (Ok ([], s')).
Proof.
  rewrite eval_attribute. split.
  - intros [q [Q H]]. destruct q as [[[|x ns] s1]| | | |]; cbn in H; try discriminate; eauto; try (inversion H; subst; eauto).
  - intros [H|[s' H]]; eexists; (split; [exact H|]); reflexivity.
Qed.
