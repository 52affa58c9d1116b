(** * The rules of the language and the expander

    What the expander does follows from the rules ([sound]). *)

From Coq Require Import String List Ascii Bool Arith NArith ZArith Lia Permutation.
From Verif Require Import Text Res Ast Env Scope State Bind Data Sorting Numbers Paths Parser
  Spec_args Spec_expand Spec_builtin Spec_bind Spec_control Spec_scope Spec_sort Spec_world Spec_errors Spec_order
  Spec_lang Proofs_text Proofs_ast Proofs_run Proofs_eval Proofs_args Proofs_builtin Proofs_simple Proofs_bind
  Proofs_control Proofs_more Proofs_get Proofs_scope Proofs_sort Proofs_extra Proofs_errors Proofs_data
  Proofs_outcomes Proofs_import Proofs_strict.
From Verif Require Spec_keep Proofs_place.
From Verif Require Import Args Expander Spec_lang.
Import ListNotations.

(** ** Results, seen from outside *)

Definition view {A} (r : res (A * state)) : res (A * context) :=
  match r with
  | Ok (x, s) => Ok (x, visible s)
  | Err e => Err e | Panic p => Panic p | Hang => Hang | OutOfFuel => OutOfFuel
  end.
Lemma seen_view (r : out) : seen r = view r.
Proof. destruct r as [[? ?]| | | |]; reflexivity. Qed.

Lemma seen_map (m : out) f (g : list node -> state -> state) :
  (forall ys s, visible (g ys s) = visible s) ->
  seen (let* '(ys, s) := m in Ok (f ys, g ys s)) = changed f (seen m).
Proof. intros G. destruct m as [[ys s]| | | |]; cbn; try reflexivity. rewrite G. reflexivity. Qed.
Lemma seen_map0 (m : out) f : seen (let* '(ys, s) := m in Ok (f ys, s)) = changed f (seen m).
Proof. apply (seen_map m f (fun _ s => s)). reflexivity. Qed.

Lemma visible_free n w d v :
  visible (State d v (free_from n w)) = Context d (g_log w) (g_sources w).
Proof. reflexivity. Qed.
Lemma seen_frame (m : state -> out) s :
  seen (let* '(ns, _, s1) := in_frame m s in Ok (ns, s1)) =
  within (visible s) (seen (m (State (x_defs s) (vec_clone (x_vec s)) (x_world s)))).
Proof.
  unfold in_frame. destruct (m _) as [[ns s1]| | | |]; reflexivity.
Qed.
Lemma visible_clone s : visible (State (x_defs s) (vec_clone (x_vec s)) (x_world s)) = visible s.
Proof. reflexivity. Qed.

Lemma fails_seen {B} (m : out) (r : res B) : fails m r -> fails (seen m) r.
Proof. destruct m as [[? ?]| | | |]; exact (fun H => H). Qed.

Lemma set_declare name m s : visible (set_defs (put name m (x_defs s)) s) = declare name m (visible s).
Proof. reflexivity. Qed.

(** ** Pure parts of the macros that are not strict *)

Lemma sort_fields n vs x : accepted rules_sort vs -> arguments rules_sort n vs = Ok x ->
  exists v order key, positionals vs = [v] /\ need as_node (PInt 1) x = Ok v /\
    want as_atom (PStr (b "order")) x = Ok order /\ want as_atom (PStr (b "key")) x = Ok key /\
    val_or (b "do") key = key_macro vs /\
    match key with Some a => a_site a | None => node_site n end = key_place n vs /\
    val_or (b "ascending") order = chosen (b "order") (b "ascending") vs.
Proof.
  intros A X. pose proof A as A0. apply accepted_sort in A as [v [P O]].
  exists v. do 2 eexists. split; [exact P|].
  split.
  { apply (need_node _ _ _ _ wf_sort X (PInt 1) (mandatory 1 (TAny [])) v []); [rule|cbn; rewrite P; reflexivity|reflexivity]. }
  split.
  { apply (want_atom _ _ _ _ wf_sort X (PStr (b "order"))
      (option_named (b "order") (TLiteral (one_of [b "ascending"; b "descending"])))); [rule|reflexivity]. }
  split.
  { apply (want_atom _ _ _ _ wf_sort X (PStr (b "key")) (option_named (b "key") (TSymbol []))); [rule|reflexivity]. }
  cbn [given]. rewrite !val_or_chosen. split; [reflexivity|]. split; [|reflexivity].
  unfold key_place. destruct (keyword_value (b "key") vs) as [k|] eqn:K; [|reflexivity].
  apply keyword_in in K as [st [w I]]. destruct (O _ _ _ _ I) as [[H _]|[_ [a ->]]]; [discriminate|reflexivity].
Qed.

Lemma sort_by_order E vs items :
  sort_by E (fun x y => if beq (chosen (b "order") (b "ascending") vs) (b "ascending")
                      then key_cmp E (fst x) (fst y) else key_cmp E (fst y) (fst x)) items =
  sort_by E (sort_order E vs) items.
Proof.
  unfold sort_order, by_key. destruct (beq _ (b "ascending")); reflexivity.
Qed.

Lemma sort_order_with E o vs : sort_order (with_order o E) vs = sort_order E vs.
Proof. reflexivity. Qed.

Lemma define_head_cases head :
  (exists a, head = Sym a) \/ (exists a params st ew es w, head = Lst (Sym a :: params) st ew es w) \/
  (exists bad, no_head head bad).
Proof.
  destruct head as [a|a|a|a|[|x l] st ew es w|k v st w]; [left; eauto|right; right; eexists; constructor; reflexivity..|
    right; right; eexists; apply no_head_empty| |right; right; eexists; constructor; reflexivity].
  destruct x as [a|a|a|a|xs st' ew' es' w'|k v st' w'] eqn:X; [right; left; eauto 8|
    right; right; eexists; apply no_head_name; reflexivity..].
Qed.

Lemma define_no_head E ex c head body s bad : no_head head bad ->
  run_builtin E ex (fun _ _ _ _ => Hang) BDefine c (head :: body) s = Err (EErr EDefine (node_site bad)).
Proof.
  intros H. cbn [run_builtin]. unfold do_define. destruct H as [head S L|st ew es w|x l st ew es w S].
  - rewrite S, L. reflexivity.
  - reflexivity.
  - cbn [symbol list_of]. rewrite S. reflexivity.
Qed.

Lemma create_cases name params body s :
  (single_rests params /\ create_macro name params body s = Ok (set_defs (put name (Macro params body) (x_defs s)) s)) \/
  (exists p, excess_rest params p /\ create_macro name params body s = Err (EErr EBindMultiRest (node_site p))).
Proof.
  destruct (proj1 (create_macro_outcome name params body s _) eq_refl) as [[A [B [s1 [Q D]]]]|[p [P Q]]].
  - left. split; [split; assumption|]. rewrite Q. apply defines_put in D. congruence.
  - right. eauto.
Qed.

Lemma is_call_at a tail st ew es w name : a_val a = b "%" ++ name ->
  is_call name tail (Lst (Sym a :: tail) st ew es w).
Proof. intros H. exists a, st, ew, es, w. auto. Qed.

Lemma starts_percent x : starts_with (b "%") x = true -> x = b "%" ++ skipn 1 x.
Proof. intros H. apply starts_with_iff in H as [y ->]. reflexivity. Qed.
Lemma no_percent x : starts_with (b "%") x = false -> forall name, x <> b "%" ++ name.
Proof.
  intros H name Q. assert (starts_with (b "%") x = true) by (apply starts_with_iff; eauto). congruence.
Qed.

Lemma separator_cases rest :
  (options (front_keywords rest) is_separator /\
   namespace_options (b "/") rest = Ok (chosen (b "separator") (b "/") (front_keywords rest), after_keywords rest)) \/
  (exists st, bad_option rest st /\ namespace_options (b "/") rest = Err (EErr ENamespace st)).
Proof.
  assert (D : options (front_keywords rest) is_separator \/ ~ options (front_keywords rest) is_separator).
  { clear. induction (front_keywords rest) as [|m ms IH]; [left; apply options_nil|].
    rewrite options_cons. destruct IH as [IH|IH]; [|right; tauto].
    destruct m as [x|x|x|x|l st ew es w|k v st w]; try (left; split; [intros; discriminate|exact IH]).
    destruct (beq k (b "separator")) eqn:K; [apply beq_eq in K; subst|].
    - destruct (atomic v) as [x|] eqn:A.
      + left. split; [|exact IH]. intros ? ? ? ? Q; inversion Q; subst. split; [reflexivity|]. unfold literal. congruence.
      + right. intros [W _]. destruct (W _ _ _ _ eq_refl) as [_ L]. unfold literal in L. congruence.
    - right. intros [W _]. destruct (W _ _ _ _ eq_refl) as [L _]. rewrite L, beq_refl in K. discriminate. }
  destruct D as [D|D].
  - left. split; [exact D|]. apply namespace_options_ok, D.
  - right. destruct (namespace_options_bad rest (b "/") D) as [st Q]. exists st. split; [|exact Q].
    apply (namespace_bad rest (b "/")), Q.
Qed.

(** ** Soundness *)

Section Sound.
Variable E : env.
Variable o : nat -> list bytes -> list bytes.
Hypothesis PERM : forall seed l, Permutation (o seed l) l.
Hypothesis TEXT : Spec_keep.reads_text E.
Let E' := with_order o E.
Let ORDER : forall seed l, Permutation (e_order E' seed l) l := PERM.

Definition good (P : result -> Prop) (r : out) : Prop := r <> OutOfFuel -> P (seen r).

Lemma good_bind {A} (m : res A) (k : A -> out) (P : result -> Prop) :
  (forall x, m = Ok x -> good P (k x)) -> (m <> OutOfFuel -> forall r, fails m r -> P r) ->
  good P (bind m k).
Proof.
  intros H F. destruct m; cbn [bind].
  - apply H. reflexivity.
  - intros _. apply F; [discriminate|reflexivity].
  - intros _. apply F; [discriminate|reflexivity].
  - intros _. apply F; [discriminate|reflexivity].
  - intros N. congruence.
Qed.
Lemma good_error (P : result -> Prop) k st : P (Err (EErr k st)) -> good P (error k st).
Proof. intros H _. exact H. Qed.
Lemma good_map (m : out) f (g : list node -> state -> state) (P Q : result -> Prop) :
  (forall ys s, visible (g ys s) = visible s) ->
  good Q m -> (forall q, Q q -> P (changed f q)) ->
  good P (let* '(ys, s) := m in Ok (f ys, g ys s)).
Proof.
  intros G H K N. rewrite (seen_map m f g G). apply K, H. destruct m as [[? ?]| | | |]; cbn in N; congruence.
Qed.

Lemma bind_node_sound p v s s1 : bind_node E' p v s = Ok s1 ->
  exists l, binds p v l /\ visible s1 = with_defs (assign l (x_defs s)) (visible s).
Proof.
  intros H. destruct (bind_node_spec E' ORDER p) as [A _]. destruct (A v s s1 H) as [l [B [D [_ [L [S _]]]]]].
  exists l. split; [exact B|]. unfold visible, with_defs. cbn. rewrite D, L, S. reflexivity.
Qed.
Lemma bind_list_sound st ps vs s s1 : bind_list E' st ps vs s = Ok s1 ->
  exists l, binds_list ps vs l /\ visible s1 = with_defs (assign l (x_defs s)) (visible s).
Proof.
  intros H.
  assert (F : Forall (bind_spec (bind_node E')) ps) by (apply Forall_forall; intros p _; apply bind_node_spec, ORDER).
  destruct (bind_list_spec E' ORDER (bind_node E') st ps F) as [A _]. destruct (A vs s s1 H) as [l [B [D [_ [L [S _]]]]]].
  exists l. split; [exact B|]. unfold visible, with_defs. cbn. rewrite D, L, S. reflexivity.
Qed.
Lemma bind_node_blame p v s r : bind_node E' p v s <> OutOfFuel -> fails (bind_node E' p v s) r ->
  exists k st, mismatch p v k st /\ r = Err (EErr k st) :> result.
Proof.
  intros _ F. destruct (bind_node_spec E' ORDER p) as [_ [_ T]]. destruct (T v s) as [[s1 Q]|[[k st] Q]]; rewrite Q in F.
  - contradiction.
  - exists k, st. split; [|exact F]. exact (proj1 (bind_node_blames E' ORDER p) v s k st Q).
Qed.
Lemma bind_list_blame st ps vs s r : bind_list E' st ps vs s <> OutOfFuel -> fails (bind_list E' st ps vs s) r ->
  exists k bad, mismatch_args st ps vs k bad /\ r = Err (EErr k bad) :> result.
Proof.
  intros _ F.
  assert (FA : Forall (bind_spec (bind_node E')) ps) by (apply Forall_forall; intros p _; apply bind_node_spec, ORDER).
  destruct (bind_list_spec E' ORDER (bind_node E') st ps FA) as [_ [_ T]].
  unfold bind_list in F. destruct (T vs s) as [[s1 Q]|[[k bad] Q]]; rewrite Q in F.
  - contradiction.
  - exists k, bad. split; [|exact F]. exact (proj1 (bind_args_blames E' ORDER st ps) vs s k bad Q).
Qed.

Section Step.
Variable ex : node -> state -> out.
Variable inv : bytes -> call -> list node -> state -> out.
Hypothesis EX : forall n s, good (means E n (visible s)) (ex n s).
Hypothesis INV : forall name c ps s, good (runs E name (c_node c) ps (visible s)) (inv name c ps s).

(** An outcome of [ex] that is not a result. *)
Lemma ex_ok n s xs s1 : ex n s = Ok (xs, s1) -> means E n (visible s) (Ok (xs, visible s1)).
Proof. intros H. pose proof (EX n s) as G. rewrite H in G. apply G. discriminate. Qed.
Lemma inv_ok name c ps s xs s1 : inv name c ps s = Ok (xs, s1) ->
  runs E name (c_node c) ps (visible s) (Ok (xs, visible s1)).
Proof. intros H. pose proof (INV name c ps s) as G. rewrite H in G. apply G. discriminate. Qed.

Lemma exs_sound ns : forall s, good (means_all E ns (visible s)) (exs ex ns s).
Proof.
  induction ns as [|n ns IH]; intros s; cbn [exs].
  - intros _. constructor.
  - apply good_bind.
    + intros [xs s1] H. apply ex_ok in H. eapply good_map with (g := fun _ s => s); [reflexivity|apply IH|].
      intros q Q. eapply means_cons; eauto.
    + intros N r F. eapply means_stop; [apply EX, N|apply fails_seen, F].
Qed.
Lemma exs_ok ns s xs s1 : exs ex ns s = Ok (xs, s1) -> means_all E ns (visible s) (Ok (xs, visible s1)).
Proof. intros H. pose proof (exs_sound ns s) as G. rewrite H in G. apply G. discriminate. Qed.

Lemma frame_good (m : state -> out) s (P Q : result -> Prop) :
  good Q (m (State (x_defs s) (vec_clone (x_vec s)) (x_world s))) -> (forall q, Q q -> P (within (visible s) q)) ->
  good P (let* '(ns, _, s1) := in_frame m s in Ok (ns, s1)).
Proof.
  intros H K N. rewrite seen_frame. apply K, H.
  intros O. apply N. unfold in_frame. rewrite O. reflexivity.
Qed.

Lemma define_sound c ps s : good (runs E (b "define") (c_node c) ps (visible s)) (do_define ex c ps s).
Proof.
  destruct ps as [|head nodes].
  { apply good_error. constructor. }
  destruct (define_head_cases head) as [[a ->]|[[a [params [st [ew [es [w ->]]]]]]|[bad H]]].
  - unfold do_define. cbn [symbol]. apply good_bind.
    + intros [body s1] H _. apply exs_ok in H. destruct (create_cases (a_val a) [] body s1) as [[_ ->]|[p [[b1 [b2 [Q _]]] _]]].
      * cbn [bind seen]. rewrite set_declare. exact (define_variable E _ a nodes _ body _ H).
      * destruct b1; discriminate.
    + intros N r F. eapply define_fails; [apply exs_sound, N|apply fails_seen, F].
  - unfold do_define. cbn [symbol list_of]. intros _.
    destruct (create_cases (a_val a) params nodes s) as [[R ->]|[p [X ->]]]; cbn [bind seen].
    + rewrite set_declare. apply define_macro. exact R.
    + apply define_excess. exact X.
  - intros _. assert (Z := define_no_head E ex c head nodes s bad H). cbn [run_builtin] in Z. rewrite Z.
    apply define_head. exact H.
Qed.

Lemma lambda_sound c ps s : good (runs E (b "lambda") (c_node c) ps (visible s)) (do_lambda E' c ps s).
Proof.
  intros _. unfold do_lambda. destruct (positionals ps) as [|head more] eqn:P.
  - destruct (arguments_cases rules_lambda (c_node c) ps wf_lambda) as [[A _]|[_ [e X]]].
    + apply accepted_lambda in A. congruence.
    + rewrite X. apply lambda_refused. apply refused_iff; [exact wf_lambda|]. exists e. auto.
  - destruct (lambda_arguments (c_node c) ps head more P) as [x [X1 [X2 X3]]]. rewrite X1. cbn [bind]. rewrite X2. cbn [bind]. rewrite X3. cbn [bind].
    assert (D : (exists params, lambda_params head params /\ match list_of head, symbol head with
        | Some l, _ => Ok l | None, Some _ => Ok [head] | None, None => error ELambda (node_site head) end = Ok params) \/
        (symbol head = None /\ list_of head = None)).
    { destruct head; auto; left; eexists; (split; [constructor|reflexivity]). }
    destruct D as [[params [LP ->]]|[D1 D2]].
    + cbn [bind]. set (name := b "__lambda" ++ uuid E' s (call_site c)).
      assert (NM : name = lambda_name E (visible s) (node_site (c_node c))) by reflexivity.
      destruct (create_cases name params (drop_positionals 1 ps) (touch c s)) as [[R ->]|[p [Y ->]]]; cbn [bind seen].
      * rewrite set_declare, visible_touch, NM. eapply lambda_made; eauto.
      * eapply lambda_excess; eauto.
    + rewrite D1, D2. cbn [bind seen error]. eapply lambda_head; eauto.
Qed.

Lemma clauses_sound v cs : forall s, good (clauses E v cs (visible s)) (match_clauses E' ex v cs s).
Proof.
  induction cs as [|clause cs IH]; intros s; cbn [match_clauses].
  - intros _. constructor.
  - destruct (list_of clause) as [[|pat body]|] eqn:L;
      [apply good_error, clauses_bad; auto| |apply good_error, clauses_bad; auto].
    destruct clause as [a|a|a|a|l st ew es w|k x st w]; try discriminate. cbn in L. inversion L; subst l.
    apply good_bind.
    + intros [ps s1] H. apply ex_ok in H. destruct ps as [|p [|p2 ps]].
      * apply good_error. eapply clauses_patterns; [exact H|discriminate].
      * destruct (bind_node_cases E' ORDER p v (State (x_defs s1) (vec_clone (x_vec s1)) (x_world s1)))
          as [[s2 [l B]]|[NB [e B]]].
        -- destruct B as [B _]. pose proof B as B1. apply bind_node_sound in B1 as [l' [Bl V]].
           rewrite B. apply frame_good with (Q := means_all E body (with_defs (assign l' (x_defs s1)) (visible s1))).
           2: { intros q Q. eapply clauses_take; eauto. }
           cbn [x_defs] in V. rewrite visible_clone in V. rewrite B. cbn [bind]. rewrite <- V. apply exs_sound.
        -- rewrite B. intros N. eapply clauses_skip; [exact H|exact NB|apply IH, N].
      * apply good_error. eapply clauses_patterns; [exact H|discriminate].
    + intros N r F. eapply clauses_fails; [apply EX, N|apply fails_seen, F].
Qed.

Lemma match_sound c ps s : good (runs E (b "match") (c_node c) ps (visible s)) (do_match E' ex c ps s).
Proof.
  destruct ps as [|e cs].
  { apply good_error. constructor. }
  unfold do_match. apply good_bind.
  - intros [vs s1] H. apply ex_ok in H. destruct vs as [|v [|v2 vs]].
    + apply good_error. eapply match_values; [exact H|discriminate].
    + intros N. eapply match_value; [exact H|]. apply clauses_sound, N.
    + apply good_error. eapply match_values; [exact H|discriminate].
  - intros N r F. eapply match_fails; [apply EX, N|apply fails_seen, F].
Qed.

Lemma respaced_out c (m : out) (P Q : result -> Prop) :
  good Q m -> (forall q, Q q -> P (changed (respaced (leading_ws (c_node c))) q)) ->
  good P (let* '(ns, s) := m in match ns with [] => Ok ([], s) | _ => Ok (set_first_ws (call_ws c) ns, touch c s) end).
Proof.
  intros H K N. assert (H' : m <> OutOfFuel) by (intros Z; apply N; rewrite Z; reflexivity).
  specialize (K _ (H H')). destruct m as [[[|x ns] s]| | | |]; try exact K.
  cbn [bind seen]. rewrite visible_touch. unfold call_ws. rewrite respaced_eq. exact K.
Qed.

Lemma defined_get name d : defined name d = true <-> get name d <> None.
Proof. unfold defined. destruct (get name d); split; intros; congruence. Qed.

Lemma ifdef_sound c ps s : good (runs E (b "ifdef") (c_node c) ps (visible s)) (do_ifdef ex c ps s).
Proof.
  unfold do_ifdef. cbv zeta.
  destruct ps as [|cond [|yes [|no [|extra ps]]]];
    try (apply good_error, ifdef_count; discriminate).
  - destruct (atomic cond) as [a|] eqn:A; [|apply good_error, ifdef_name; [cbn; lia|exact A]].
    destruct (defined (a_val a) (x_defs s)) eqn:D.
    + apply defined_get in D. eapply respaced_out; [apply EX|]. intros q Q. eapply ifdef_yes; eauto.
    + intros _. cbn. eapply ifdef_not; [exact A|]. destruct (get (a_val a) (k_defs (visible s))) eqn:G; [|reflexivity].
      exfalso. assert (defined (a_val a) (x_defs s) = true); [|congruence]. apply defined_get. cbn in G. congruence.
  - destruct (atomic cond) as [a|] eqn:A; [|apply good_error, ifdef_name; [cbn; lia|exact A]].
    destruct (defined (a_val a) (x_defs s)) eqn:D.
    + apply defined_get in D. eapply respaced_out; [apply EX|]. intros q Q. eapply ifdef_yes; eauto.
    + eapply respaced_out; [apply EX|]. intros q Q. eapply ifdef_no; [exact A| |exact Q].
      destruct (get (a_val a) (k_defs (visible s))) eqn:G; [|reflexivity].
      exfalso. assert (defined (a_val a) (x_defs s) = true); [|congruence]. apply defined_get. cbn in G. congruence.
Qed.

Lemma include_sound c ps s : good (runs E (b "include") (c_node c) ps (visible s)) (do_include E' ex c ps s).
Proof.
  unfold do_include. apply good_bind.
  2: { intros N r F. eapply runs_fails; [right; right; left; reflexivity|apply exs_sound, N|apply fails_seen, F]. }
  intros [vs s1] H. apply exs_ok in H. destruct vs as [|v [|v2 vs]];
    [apply good_error; eapply include_count; [exact H|discriminate]| |apply good_error; eapply include_count; [exact H|discriminate]].
  destruct (atomic v) as [a|] eqn:A; [|apply good_error; eapply include_other; eauto].
  pose proof (search_first E true (a_val a) (e_includes E)) as S.
  change (search_file E' true (e_includes E') (a_val a)) with (search_file E true (e_includes E) (a_val a)).
  destruct (search_file E true (e_includes E) (a_val a)) as [[path text]|]; [|apply good_error; eapply include_missing; eauto].
  assert (U : Utf8.utf8 text) by (destruct S as [? [? [_ [_ S]]]]; exact (TEXT _ _ S)).
  unfold add_source.
  set (s2 := set_world _ s1).
  assert (V : visible s2 = reading path text (visible s1)) by reflexivity.
  change (length (g_sources (x_world s1))) with (length (k_files (visible s1))).
  change (e_unescape E') with (e_unescape E).
  destruct (parse (e_unescape E) (length (k_files (visible s1))) text) as [tree|e|p| |] eqn:PA; try (apply Proofs_place.syntax_iff in PA; [|exact U]).
  - eapply respaced_out; [apply exs_sound|]. intros q Q. eapply include_file; eauto.
  - apply good_error. eapply include_syntax; eauto.
  - intros _. eapply include_stops; [exact H|exact A|exact S|exact PA|discriminate|reflexivity].
  - intros _. eapply include_stops; [exact H|exact A|exact S|exact PA|discriminate|reflexivity].
  - intros N. congruence.
Qed.

Lemma namespace_sound c ps s : good (runs E (b "namespace") (c_node c) ps (visible s)) (do_namespace E' ex c ps s).
Proof.
  unfold do_namespace, in_frame.
  set (s0 := State (x_defs s) (vec_clone (x_vec s)) (x_world s)).
  change (visible s) with (visible s0).
  destruct (exs ex ps s0) as [[vs s1]| | | |] eqn:H; cbn [bind];
    try (intros N; eapply runs_fails; [right; right; right; left; reflexivity|apply exs_sound; rewrite H; discriminate|rewrite H; reflexivity]);
    [|congruence].
  apply exs_ok in H. destruct vs as [|name rest].
  { apply good_error. eapply namespace_name; [exact H|]. discriminate. }
  destruct (atomic name) as [a|] eqn:A.
  2: { apply good_error. eapply namespace_name; [exact H|]. intros ? ? ? Q. inversion Q; subst. congruence. }
  destruct (separator_cases rest) as [[O ->]|[st [B ->]]]; cbn [bind].
  - intros _. cbn [seen].
    match goal with |- runs _ _ _ _ _ (Ok (_, visible ?t)) => change (visible t) with (with_defs (x_defs t) (visible s1)) end.
    eapply namespace_ok; [exact H|exact A|exact O|]. apply copy_imported, ORDER.
  - intros _. cbn [seen]. eapply namespace_option; eauto.
Qed.

Lemma rounds_sound p body items : forall s, good (rounds E p body items (visible s)) (for_each E' ex p items body s).
Proof.
  induction items as [|i items IH]; intros s; cbn [for_each].
  - intros _. constructor.
  - apply good_bind.
    2: { intros N r F. apply bind_node_blame in F as [k [st [M ->]]]; [|exact N]. apply rounds_mismatch, M. }
    intros s1 B. apply bind_node_sound in B as [l [B V]].
    apply good_bind.
    2: { intros N r F. eapply rounds_fails; [exact B| |apply fails_seen, F]. change (k_defs (visible s)) with (x_defs s). rewrite <- V. apply exs_sound, N. }
    intros [xs s2] H. apply exs_ok in H. rewrite V in H.
    eapply good_map with (g := fun _ s => s); [reflexivity|apply IH|]. intros q Q. eapply rounds_round; eauto.
Qed.

Lemma for_cases ps :
  (exists p i items st ew es w more,
     positionals ps = p :: Sym i :: Lst items st ew es w :: more /\ a_val i = b "in") \/
  ~ accepted rules_for ps.
Proof.
  destruct (arguments_cases rules_for (Sym (Atom [] (Site 0 0 0 0 0) [])) ps wf_for) as [[A _]|[A _]]; [left|right; exact A].
  apply accepted_for in A. exact A.
Qed.

Lemma not_accepted_refused rs n vs : well_formed rs -> ~ accepted rs vs ->
  exists e, arguments rs n vs = Err e /\ forall A, refused rs n vs (@Err A e).
Proof.
  intros W N. destruct (arguments_cases rs n vs W) as [[A _]|[_ [e X]]]; [contradiction|].
  exists e. split; [exact X|]. intros T. apply refused_iff; eauto.
Qed.

Lemma for_sound c ps s : good (runs E (b "for") (c_node c) ps (visible s)) (do_for E' ex c ps s).
Proof.
  unfold do_for. destruct (for_cases ps) as [[p [i [items [st [ew [es [w [more [P I]]]]]]]]]|N].
  - destruct (for_arguments (c_node c) ps p i items st ew es w more P I) as [x [X1 [X2 [X3 X4]]]].
    rewrite X1. cbn [bind]. rewrite X2. cbn [bind]. rewrite X3. cbn [bind]. rewrite X4. cbn [bind].
    rewrite <- (visible_touch c s). apply good_bind.
    + intros [vs s1] H. apply exs_ok in H. eapply frame_good; [apply rounds_sound|]. rewrite visible_clone.
      intros q Q. eapply for_loop; eauto.
    + intros NF r F. eapply for_fails; [exact P|exact I|apply exs_sound, NF|apply fails_seen, F].
  - destruct (not_accepted_refused rules_for (c_node c) ps wf_for N) as [e [X R]]. rewrite X. intros _. apply for_refused, R.
Qed.

Lemma each_sound name c vs (drop : bool) : forall s,
  good (each E name (c_node c) (if drop then is_unit else drop_none) vs (visible s)) (map_each inv drop name c vs s).
Proof.
  induction vs as [|v vs IH]; intros s; cbn [map_each].
  - intros _. constructor.
  - apply good_bind.
    + intros [xs s1] H. apply inv_ok in H. cbv zeta.
      assert (Q : match xs with [x] => if drop && null x then [] else xs | _ => xs end =
        if (if drop then is_unit else drop_none) xs then [] else xs).
      { destruct drop; [|destruct xs as [|? [|]]; reflexivity]. destruct xs as [|x [|]]; try reflexivity.
        cbn. destruct x as [| | | |[|] ? ? ? ?|]; reflexivity. }
      rewrite Q. eapply good_map with (g := fun _ s => s); [reflexivity|apply IH|]. intros q K. eapply each_next; eauto.
    + intros N r F. eapply each_fails; [apply INV, N|apply fails_seen, F].
Qed.

(** Macros that begin with [eager]. *)
Lemma eager_good {rs name} c ps s (k : args -> list node -> state -> out) :
  In (name, rs) eager_rules -> evaluates_first name ->
  (forall vs s1 x, means_all E ps (visible s) (Ok (vs, visible s1)) -> accepted rs vs -> arguments rs (c_node c) vs = Ok x ->
     good (runs E name (c_node c) ps (visible s)) (k x vs s1)) ->
  good (runs E name (c_node c) ps (visible s)) (let* '(x, vs, s1) := eager ex rs c ps s in k x vs s1).
Proof.
  intros I EF K. unfold eager. pose proof (eager_well_formed name rs I) as W.
  destruct (exs ex ps s) as [[vs s1]|e|p| |] eqn:H; cbn [bind];
    try (intros N; eapply runs_fails; [exact EF|apply exs_sound; rewrite H; discriminate|rewrite H; reflexivity]);
    [|congruence].
  apply exs_ok in H. destruct (arguments_cases rs (c_node c) vs W) as [[A [x X]]|[A [e X]]]; rewrite X; cbn [bind].
  - apply K; [rewrite visible_touch|..]; assumption.
  - intros _. eapply runs_refused; [exact I|exact H|]. apply refused_iff; eauto.
Qed.

Lemma map_sound (drop : bool) c ps s :
  good (runs E (if drop then b "filter" else b "map") (c_node c) ps (visible s)) (do_map ex inv drop c ps s).
Proof.
  set (name := if drop then b "filter" else b "map").
  apply (@eager_good rules_map name c ps s (fun x _ s1 =>
    let* f := need as_atom (PInt 1) x in let* l := rest_of as_node x in map_each inv drop (a_val f) c l s1)).
  - destruct drop; cbn; auto 20.
  - right. right. destruct drop; cbn; auto 20.
  - intros vs s1 x M A X. apply accepted_map in A as [f [more P]].
    destruct (map_arguments (c_node c) vs f more P) as [x' [X1 [X2 X3]]]. rewrite X in X1. inversion X1; subst x'.
    rewrite X2. cbn [bind]. rewrite X3. cbn [bind]. intros N.
    pose proof (each_sound (a_val f) c (drop_positionals 1 vs) drop s1 N) as S.
    unfold name. destruct drop; [eapply filter_all|eapply map_all]; eauto.
Qed.

Lemma apply_sound c ps s : good (runs E (b "apply") (c_node c) ps (visible s)) (do_apply ex inv c ps s).
Proof.
  apply (@eager_good rules_map (b "apply") c ps s (fun x _ s1 =>
    let* f := need as_atom (PInt 1) x in let* l := rest_of as_node x in inv (a_val f) c l s1)).
  - cbn; auto 20.
  - right. right. cbn; auto 20.
  - intros vs s1 x M A X. apply accepted_map in A as [f [more P]].
    destruct (map_arguments (c_node c) vs f more P) as [x' [X1 [X2 X3]]]. rewrite X in X1. inversion X1; subst x'.
    rewrite X2. cbn [bind]. rewrite X3. cbn [bind]. intros N.
    eapply apply_all; [exact M|exact P|apply INV, N].
Qed.

Lemma keys_sound name c st ns : forall s, sort_keys inv name c st ns s <> OutOfFuel ->
  keys E name (c_node c) st ns (visible s) (view (sort_keys inv name c st ns s)).
Proof.
  induction ns as [|n ns IH]; intros s N; cbn [sort_keys] in *; [constructor|].
  destruct (inv name c [n] s) as [[key s1]|e|p| |] eqn:H; cbn [bind error] in *.
  - apply inv_ok in H. destruct key as [|k [|k2 ks]].
    + eapply keys_count; [exact H|discriminate].
    + destruct (atomic k) as [a|] eqn:A; [|eapply keys_other; eauto].
      specialize (IH s1). destruct (sort_keys inv name c st ns s1) as [[items s2]|e|p| |] eqn:K; cbn [bind view] in *.
      * eapply keys_next; [exact H|exact A|]. apply IH. discriminate.
      * eapply keys_later; [exact H|exact A|apply IH; discriminate|reflexivity].
      * eapply keys_later; [exact H|exact A|apply IH; discriminate|reflexivity].
      * eapply keys_later; [exact H|exact A|apply IH; discriminate|reflexivity].
      * congruence.
    + eapply keys_count; [exact H|discriminate].
  - eapply keys_error. pose proof (INV name c [n] s) as G. rewrite H in G. apply G. discriminate.
  - apply (keys_stops E name _ _ _ _ _ (Panic p)); [|discriminate|reflexivity]. pose proof (INV name c [n] s) as G. rewrite H in G. apply G. discriminate.
  - apply (keys_stops E name _ _ _ _ _ Hang); [|discriminate|reflexivity]. pose proof (INV name c [n] s) as G. rewrite H in G. apply G. discriminate.
  - congruence.
Qed.

Lemma sort_keys_nodes name c st ns : forall s items s1,
  sort_keys inv name c st ns s = Ok (items, s1) -> map snd items = ns.
Proof.
  induction ns as [|n ns IH]; intros s items s1 H; cbn [sort_keys] in H.
  - inversion H. reflexivity.
  - destruct (inv name c [n] s) as [[key s2]|e|p| |]; try discriminate. cbn [bind] in H.
    destruct key as [|k [|k2 ks]]; try discriminate. destruct (atomic k); try discriminate.
    destruct (sort_keys inv name c st ns s2) as [[its s3]|e|p| |] eqn:K; try discriminate. cbn [bind] in H.
    inversion H; subst. cbn. f_equal. eapply IH, K.
Qed.

Lemma sort_sound c ps s : good (runs E (b "sort") (c_node c) ps (visible s)) (do_sort E' ex inv c ps s).
Proof.
  apply (@eager_good rules_sort (b "sort") c ps s (fun x _ s1 =>
    let* n := need as_node (PInt 1) x in
    let* order := want as_atom (PStr (b "order")) x in
    let* key := want as_atom (PStr (b "key")) x in
    let key_site := match key with Some a => a_site a | None => call_site c end in
    let name := val_or (b "do") key in
    let ascending := beq (val_or (b "ascending") order) (b "ascending") in
    match n with
    | Lst nodes st ew es _ =>
      let* '(items, s) := sort_keys inv name c key_site nodes s1 in
      let* sorted :=
        sort_by E' (fun x y => if ascending then key_cmp E' (fst x) (fst y)
                            else key_cmp E' (fst y) (fst x)) items in
      Ok ([Lst (with_ws_of (map snd sorted) nodes) st ew es (call_ws c)], touch c s)
    | _ => error ESort (node_site n)
    end)).
  - cbn; auto 20.
  - right. right. cbn; auto 20.
  - intros vs s1 x M A X. destruct (sort_fields (c_node c) vs x A X) as [v [order [key [P [X1 [X2 [X3 [Q1 [Q2 Q3]]]]]]]]].
    rewrite X1. cbn [bind]. rewrite X2. cbn [bind]. rewrite X3. cbn [bind]. cbv zeta.
    unfold call_site. rewrite Q1, Q2, Q3.
    destruct v as [a|a|a|a|nodes st ew es w|k v st w];
      try (apply good_error; eapply sort_other; [exact M|exact A|exact P|reflexivity]).
    pose proof (keys_sound (key_macro vs) c (key_place (c_node c) vs) nodes s1) as K.
    destruct (sort_keys inv (key_macro vs) c (key_place (c_node c) vs) nodes s1) as [[items s2]|e|p| |] eqn:SK; cbn [bind view] in *.
    + lapply K; [clear K; intros K|discriminate]. change (key_cmp E') with (key_cmp E).
      change (@sort_by (bytes * node) E') with (@sort_by (bytes * node) E). rewrite sort_by_order.
      destruct (sort_by E (sort_order E vs) items) as [l'|e|p| |] eqn:ST; apply sort_by_iff in ST; cbn [bind];
        try (intros _; cbn [seen]; eapply sort_disorder; [exact M|exact A|exact P|exact K|exact ST|reflexivity]).
      * intros _. cbn [seen]. rewrite visible_touch. eapply sort_list; [exact M|exact A|exact P|exact K|exact ST|].
        apply arranged_with. apply sorts_perm in ST. apply sort_keys_nodes in SK.
        rewrite map_length, (Permutation_length ST), <- SK, map_length. reflexivity.
      * inversion ST.
    + intros _. eapply sort_fails; [exact M|exact A|exact P|apply K; discriminate|reflexivity].
    + intros _. eapply sort_fails; [exact M|exact A|exact P|apply K; discriminate|reflexivity].
    + intros _. eapply sort_fails; [exact M|exact A|exact P|apply K; discriminate|reflexivity].
    + intros N. congruence.
Qed.

Lemma find_reserved name : find_builtin name = None <-> ~ reserved name.
Proof.
  unfold find_builtin, reserved. generalize builtins. induction l as [|[k m] l IH]; cbn; [tauto|].
  destruct (beq name k) eqn:B.
  - apply beq_eq in B. subst. split; [discriminate|]. intros H. exfalso. auto.
  - apply beq_neq in B. rewrite IH. split; [|tauto]. intros H [Q|Q]; [congruence|auto].
Qed.

Lemma user_sound name c ps s : find_builtin name = None ->
  good (runs E name (c_node c) ps (visible s)) (call_macro E' ex name c ps s).
Proof.
  intros R. apply find_reserved in R. unfold call_macro. apply good_bind.
  2: { intros N r F. eapply runs_fails; [left; exact R|apply exs_sound, N|apply fails_seen, F]. }
  intros [vs s1] H. apply exs_ok in H. destruct (get name (x_defs s1)) as [m|] eqn:G.
  2: { apply good_error. eapply runs_unknown; eauto. }
  unfold apply_macro, call_site.
  set (s0 := State (x_defs s1) (vec_clone (x_vec s1)) (x_world s1)).
  destruct (bind_list E' (node_site (c_node c)) (m_params m) vs s0) as [s2|e|p| |] eqn:B.
  - pose proof B as B1. apply bind_list_sound in B1 as [l [BL V]].
    change (x_defs s0) with (x_defs s1) in V. change (visible s0) with (visible s1) in V.
    eapply frame_good with (Q := means_all E (m_body m) (with_defs (assign l (x_defs s1)) (visible s1))).
    + fold s0. rewrite B. cbn [bind]. rewrite <- V. apply exs_sound.
    + intros q Q. eapply runs_body; eauto.
  - unfold in_frame. fold s0. rewrite B. cbn [bind]. intros _.
    destruct (bind_list_blame (node_site (c_node c)) (m_params m) vs s0 (Err e)) as [k [bad [MM Q]]];
      [rewrite B; discriminate|rewrite B; reflexivity|]. cbn [seen]. rewrite Q. eapply runs_mismatch; eauto.
  - unfold in_frame. fold s0. rewrite B. cbn [bind]. intros _.
    destruct (bind_list_blame (node_site (c_node c)) (m_params m) vs s0 (Panic p)) as [k [bad [MM Q]]];
      [rewrite B; discriminate|rewrite B; reflexivity|discriminate].
  - unfold in_frame. fold s0. rewrite B. cbn [bind]. intros _.
    destruct (bind_list_blame (node_site (c_node c)) (m_params m) vs s0 Hang) as [k [bad [MM Q]]];
      [rewrite B; discriminate|rewrite B; reflexivity|discriminate].
  - unfold in_frame. fold s0. rewrite B. cbn [bind]. intros N. congruence.
Qed.

Lemma strict_sound name m c ps s : find_builtin name = Some m -> strict m = true ->
  good (runs E name (c_node c) ps (visible s)) (run_builtin E' ex inv m c ps s).
Proof.
  intros F S. rewrite strict_finish by exact S. destruct (strict_meaning name m F S) as [me I].
  apply good_bind.
  - intros [vs s1] H _. apply exs_ok in H. replace (finish E' m c vs s1) with (finish E m c vs s1) by (symmetry; apply finish_order, S).
    destruct (values_meaning E name me I) as [m' [F' [_ D]]]. assert (m' = m) by congruence. subst m'.
    destruct (proj2 (D c vs s1 _) eq_refl) as [M|[rs [RS R]]].
    + eapply runs_values; eauto.
    + eapply runs_refused; eauto.
  - intros N r FF. eapply runs_fails; [|apply exs_sound, N|apply fails_seen, FF].
    right. left. exact (in_map fst _ _ I).
Qed.

Lemma invoke_sound name c ps s : good (runs E name (c_node c) ps (visible s)) (invoke E' ex inv name c ps s).
Proof.
  unfold invoke. destruct (find_builtin name) as [m|] eqn:F; [|apply user_sound, F].
  destruct (strict m) eqn:S; [exact (strict_sound name m c ps s F S)|].
  apply find_builtin_in in F. cbn in F.
  repeat (destruct F as [F|F]; [inversion F; subst; clear F; try discriminate S|]); [..|destruct F]; cbn [run_builtin].
  - apply define_sound.
  - apply match_sound.
  - apply ifdef_sound.
  - apply include_sound.
  - apply namespace_sound.
  - apply for_sound.
  - apply sort_sound.
  - apply (map_sound false).
  - apply (map_sound true).
  - apply apply_sound.
  - apply lambda_sound.
Qed.

Lemma is_call_name name args a l st ew es w : is_call name args (Lst (Sym a :: l) st ew es w) ->
  a_val a = b "%" ++ name /\ args = l.
Proof. intros [a' [st' [ew' [es' [w' [Q H]]]]]]. inversion Q; subst. auto. Qed.

Lemma one_sound n s : good (means E n (visible s)) (expand_one ex inv n s).
Proof.
  destruct n as [a|a|a|a|[|head tail] st ew es w|k v st w]; cbn [expand_one].
  - destruct (starts_with (b "%") (a_val a)) eqn:P.
    + apply starts_percent in P. destruct (get (skipn 1 (a_val a)) (x_defs s)) as [[[|p ps] body]|] eqn:G.
      * intros N. cbn [m_params m_body] in *. rewrite seen_map0. change (set_first_ws (a_ws a)) with (respaced (a_ws a)).
        eapply means_variable; [exact P|exact G|]. apply exs_sound. intros O. apply N. rewrite O. reflexivity.
      * apply good_error. eapply means_undefined; [exact P|]. intros body' Q. cbn in Q. rewrite G in Q. discriminate.
      * apply good_error. eapply means_undefined; [exact P|]. intros body' Q. cbn in Q. rewrite G in Q. discriminate.
    + intros _. apply means_symbol, no_percent, P.
  - intros _. eapply means_atom; reflexivity.
  - intros _. eapply means_atom; reflexivity.
  - intros _. eapply means_atom; reflexivity.
  - intros _. change (Ok ([Lst [] st ew es w], s)) with (let* '(ys, s) := exs ex [] s in Ok ([Lst ys st ew es w], s)).
    rewrite seen_map0 with (f := fun ys => [Lst ys st ew es w]). apply means_list; [|constructor].
    intros name args [a [st' [ew' [es' [w' [Q _]]]]]]. discriminate.
  - assert (PL : (forall name args, ~ is_call name args (Lst (head :: tail) st ew es w)) ->
      forall s', visible s' = visible s ->
      good (means E (Lst (head :: tail) st ew es w) (visible s))
       (let* '(ns, s) := exs ex (head :: tail) s' in Ok ([Lst ns st ew es w], s))).
    { intros NC s' V N. rewrite seen_map0 with (f := fun ys => [Lst ys st ew es w]). apply means_list; [exact NC|].
      rewrite <- V. apply exs_sound. intros O. apply N. rewrite O. reflexivity. }
    cbv zeta. destruct head as [a|a|a|a|l st' ew' es' w'|k v st' w']; cbn [symbol];
      try (apply PL; [|reflexivity]; intros ? ? [? [? [? [? [? [Q _]]]]]]; discriminate).
    unfold register. destruct (starts_with (b "%") (a_val a)) eqn:P.
    + apply starts_percent in P. intros N. eapply means_call; [apply is_call_at, P|].
      set (c := Call _ _) in *. change (Lst (Sym a :: tail) st ew es w) with (c_node c).
      match type of N with inv _ _ _ ?t <> _ => change (visible s) with (visible t) end.
      rewrite <- received_trim. apply INV, N.
    + apply PL; [|reflexivity]. intros name args C. apply is_call_name in C as [C _]. exact (no_percent _ P _ C).
  - apply good_bind.
    + intros [[|x xs] s1] H _; apply ex_ok in H.
      * eapply means_attr_nothing, H.
      * eapply means_attr, H.
    + intros N r F. eapply means_attr_fails; [apply EX, N|apply fails_seen, F].
Qed.
End Step.

Theorem run_sound f :
  (forall n s, good (means E n (visible s)) (run E' f (TNode n) s)) /\
  (forall name c ps s, good (runs E name (c_node c) ps (visible s)) (run E' f (TInvoke name c ps) s)).
Proof.
  induction f as [|f [IH1 IH2]].
  - split; intros; intros N; exfalso; apply N; reflexivity.
  - split; intros; cbn [run].
    + apply one_sound; assumption.
    + apply invoke_sound; assumption.
Qed.

Theorem nodes_sound ns s r : evals E' ns s r -> means_all E ns (visible s) (seen r).
Proof.
  intros [N [f H]]. specialize (H f (le_n f)). rewrite <- H. destruct (run_sound f) as [A B].
  refine (exs_sound _ A ns s _). unfold expand_nodes, expand_node in H. rewrite H. exact N.
Qed.
End Sound.
