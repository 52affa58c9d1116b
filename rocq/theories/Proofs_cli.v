(** * Proofs about the command line *)

From Coq Require Import String List Ascii Bool Arith Lia Sorting.Sorted.
From Verif Require Import Text Res Ast Env State Paths Format Expander Cli Spec_scope Spec_cli
  Proofs_text Proofs_scope.
Import ListNotations.

(** ** Splitting *)

Lemma skipn_app_exact {A} (p r : list A) : skipn (length p) (p ++ r) = r.
Proof. induction p; cbn; auto. Qed.

Lemma cut_first sep s a r : cut_at sep s = Some (a, r) -> first_at sep s a r.
Proof.
  revert a r. induction s as [|c s IH]; intros a r; cbn [cut_at].
  - destruct (starts_with sep []) eqn:S; [|discriminate]. intros H. inversion H; subst.
    apply starts_with_iff in S as [q S]. symmetry in S. apply app_eq_nil in S as [-> ->].
    split; [reflexivity|cbn; intros; lia].
  - destruct (starts_with sep (c :: s)) eqn:S.
    + intros H. inversion H; subst. apply starts_with_iff in S as [q S].
      rewrite S, skipn_app_exact. split; [reflexivity|cbn; intros; lia].
    + destruct (cut_at sep s) as [[a0 r0]|]; [|discriminate]. intros H. inversion H; subst.
      destruct (IH _ _ eq_refl) as [-> M]. split; [reflexivity|]. intros [|d a'] r' Q.
      * exfalso. assert (T : starts_with sep (c :: a0 ++ sep ++ r) = true) by (apply starts_with_iff; exists r'; exact Q). congruence.
      * inversion Q. apply M in H2. cbn. lia.
Qed.
Lemma cut_none sep s : cut_at sep s = None -> ~ occurs sep s.
Proof.
  induction s as [|c s IH]; cbn [cut_at].
  - destruct (starts_with sep []) eqn:S; [discriminate|]. intros _ [a [r H]].
    destruct a; [|discriminate]. assert (T : starts_with sep [] = true) by (apply starts_with_iff; exists r; exact H). congruence.
  - destruct (starts_with sep (c :: s)) eqn:S; [discriminate|].
    destruct (cut_at sep s) as [[a0 r0]|] eqn:C; [discriminate|]. intros _ [[|d a] [r H]].
    + assert (T : starts_with sep (c :: s) = true) by (apply starts_with_iff; exists r; exact H). congruence.
    + inversion H. apply (IH eq_refl). exists a, r. assumption.
Qed.
Lemma app_split_eq {A} (x y x' y' : list A) : x ++ y = x' ++ y' -> length x = length x' -> x = x' /\ y = y'.
Proof.
  revert x'. induction x as [|c x IH]; intros [|d x'] H L; try discriminate; [auto|].
  inversion H. inversion L. destruct (IH x') as [-> ->]; auto.
Qed.
Lemma first_unique sep s a r a' r' : first_at sep s a r -> first_at sep s a' r' -> a = a' /\ r = r'.
Proof.
  intros [H M] [H' M']. pose proof (M _ _ H'). pose proof (M' _ _ H). assert (L : length a = length a') by lia.
  rewrite H in H'. apply app_split_eq in H' as [-> Q]; [|exact L]. split; [reflexivity|]. apply app_inv_head in Q. exact Q.
Qed.
Lemma first_occurs sep s a r : first_at sep s a r -> occurs sep s.
Proof. intros [H _]. exists a, r. exact H. Qed.
Lemma second_long arg opt : second_piece (b "--") arg = Some opt <-> long_option arg opt.
Proof.
  unfold second_piece, long_option. split.
  - destruct (cut_at (b "--") arg) as [[a r]|] eqn:C; [|discriminate].
    destruct (cut_at (b "--") r) as [[x y]|] eqn:D; intros H; exists a, r; (split; [apply cut_first, C|]).
    + left. exists y. apply cut_first in D. inversion H; subst. exact D.
    + right. split; [apply cut_none, D|]. inversion H. reflexivity.
  - intros [a [r [F G]]]. destruct (cut_at (b "--") arg) as [[a' r']|] eqn:C.
    + apply cut_first in C. destruct (first_unique _ _ _ _ _ _ F C) as [<- <-]. f_equal.
      destruct (cut_at (b "--") r) as [[x y]|] eqn:D.
      * apply cut_first in D. destruct G as [[z G]|[N _]]; [apply (first_unique _ _ _ _ _ _ D G)|].
        exfalso. apply N. eapply first_occurs, D.
      * apply cut_none in D. destruct G as [[z G]|[_ ->]]; [|reflexivity]. exfalso. apply D. eapply first_occurs, G.
    + apply cut_none in C. exfalso. apply C. eapply first_occurs, F.
Qed.
Lemma second_none arg : second_piece (b "--") arg = None <-> ~ occurs (b "--") arg.
Proof.
  unfold second_piece. destruct (cut_at (b "--") arg) as [[a r]|] eqn:C.
  - split; [discriminate|]. intros N. exfalso. apply N. eapply first_occurs, cut_first, C.
  - split; [|reflexivity]. intros _. apply cut_none, C.
Qed.

(** [split("-").nth(1)] of an argument beginning with a dash. *)
Lemma second_dash r : second_piece (b "-") (b "-" ++ r) =
  Some (match cut_at (b "-") r with Some (x, _) => x | None => r end).
Proof. reflexivity. Qed.

Lemma mem_iff x l : existsb (beq x) l = true <-> In x l.
Proof.
  rewrite existsb_exists. split.
  - intros [y [I H]]. apply beq_eq in H. subst. exact I.
  - intros I. exists x. split; [exact I|]. apply beq_eq. reflexivity.
Qed.

(** ** Single arguments *)

Definition effect (c : command) (f : config) : config + nat :=
  match c with
  | Target t => inl (Config (files f) t (include_dirs f) (from_stdin f) (is_doc f))
  | NoDocument => inl (Config (files f) (target f) (include_dirs f) (from_stdin f) false)
  | Version => inr 0
  | Include d => inl (Config (files f) (target f) (bt_insert path_cmp d (include_dirs f)) (from_stdin f) (is_doc f))
  | Stdin => inl (Config (files f) (target f) (include_dirs f) true (is_doc f))
  | Source p => inl (Config (files f ++ [p]) (target f) (include_dirs f) (from_stdin f) (is_doc f))
  | Wrong => inr 1
  end.

Lemma not_dash W arg f : ~ dash arg ->
  read_arg W arg f = if w_exists W arg then effect (Source arg) f else inr 1.
Proof.
  intros N. unfold read_arg. destruct arg as [|c arg]; [reflexivity|].
  destruct (Ascii.eqb c "-"%char) eqn:C.
  - apply Ascii.eqb_eq in C. subst. exfalso. apply N. exists arg. reflexivity.
  - destruct c as [[] [] [] [] [] [] [] []]; try discriminate C; reflexivity.
Qed.

Lemma long_effect W arg t f : dash arg -> long_option arg t ->
  read_arg W arg f = if existsb (beq t) target_names then effect (Target t) f
    else if existsb (beq t) document_options then effect NoDocument f else inr 1.
Proof.
  intros [r ->] L. apply second_long in L. unfold read_arg. cbn [b list_ascii_of_string app] in *. rewrite L.
  destruct (existsb (beq t) supported_targets) eqn:T; unfold target_names; change (map b _) with supported_targets;
    rewrite T; [reflexivity|]. cbn [document_options map existsb]. rewrite orb_false_r. reflexivity.
Qed.

Lemma short_effect W arg f r : arg = b "-" ++ r -> ~ occurs (b "--") arg ->
  read_arg W arg f = match (match cut_at (b "-") r with Some (x, _) => x | None => r end) with
    | ["v"%char] => inr 0
    | "I"%char :: _ => effect (Include (skipn 2 arg)) f
    | [] => effect Stdin f
    | _ => inr 1
    end.
Proof.
  intros -> N. apply second_none in N. unfold read_arg. cbn [b list_ascii_of_string app] in *. rewrite N.
  pose proof (second_dash r) as Q. cbn [b list_ascii_of_string app] in Q. rewrite Q. reflexivity.
Qed.

Lemma cut_no_dash r x y : cut_at (b "-") r = Some (x, y) -> r = x ++ b "-" ++ y /\ has "-"%char x = false.
Proof.
  intros H. apply cut_first in H as [-> M]. split; [reflexivity|].
  destruct (has "-"%char x) eqn:D; [|reflexivity]. exfalso. unfold has in D. apply existsb_exists in D as [c [I C]].
  apply Ascii.eqb_eq in C. subst c. apply in_split in I as [l1 [l2 ->]].
  specialize (M l1 (l2 ++ b "-" ++ y)). rewrite app_length in M. cbn in M.
  rewrite <- app_assoc in M. specialize (M eq_refl). lia.
Qed.

Lemma not_double r : ~ occurs (b "--") (b "-" ++ b "-" ++ r) -> False.
Proof. intros H. apply H. exists [], r. reflexivity. Qed.

Theorem understood_effect W arg c f : understood W arg c -> read_arg W arg f = effect c f.
Proof.
  destruct 1 as [arg t D L I|arg t D L I|arg t D L N M|r N V|dir N| |arg D N A V I|arg N X|arg N X].
  - rewrite (long_effect W arg t f D L). apply mem_iff in I. rewrite I. reflexivity.
  - rewrite (long_effect W arg t f D L). destruct (existsb (beq t) target_names) eqn:T.
    + exfalso. apply mem_iff in T. cbn in T, I. intuition congruence.
    + apply mem_iff in I. rewrite I. reflexivity.
  - rewrite (long_effect W arg t f D L). rewrite <- mem_iff in N, M.
    apply not_true_is_false in N. apply not_true_is_false in M. rewrite N, M. reflexivity.
  - rewrite (short_effect W (b "-v" ++ r) f (b "v" ++ r) eq_refl N).
    destruct V as [->|[q ->]]; reflexivity.
  - rewrite (short_effect W (b "-I" ++ dir) f (b "I" ++ dir) eq_refl N). cbn [b list_ascii_of_string app] in *.
    cbn [cut_at starts_with]. cbn. destruct (cut_at ["-"%char] dir) as [[x y]|]; reflexivity.
  - reflexivity.
  - destruct D as [r ->]. rewrite (short_effect W (b "-" ++ r) f r eq_refl N).
    destruct r as [|c r]; [exfalso; apply A; reflexivity|].
    destruct (cut_at (b "-") (c :: r)) as [[x y]|] eqn:C.
    + apply cut_no_dash in C as [C H]. destruct x as [|d x].
      * cbn in C. exfalso. apply N. rewrite C. exists [], y. reflexivity.
      * cbn in C. inversion C; subst.
        destruct (Ascii.eqb d "v"%char) eqn:DV; [|destruct (Ascii.eqb d "I"%char) eqn:DI].
        -- apply Ascii.eqb_eq in DV. subst. destruct (V _ eq_refl) as [V1 V2].
           destruct x; [exfalso; apply V2; exists y; reflexivity|reflexivity].
        -- apply Ascii.eqb_eq in DI. subst. exfalso. eapply I. reflexivity.
        -- destruct d as [[] [] [] [] [] [] [] []]; try discriminate DV; try discriminate DI; destruct x; reflexivity.
    + destruct (Ascii.eqb c "v"%char) eqn:DV; [|destruct (Ascii.eqb c "I"%char) eqn:DI].
      * apply Ascii.eqb_eq in DV. subst. destruct (V _ eq_refl) as [V1 V2].
        destruct r; [congruence|reflexivity].
      * apply Ascii.eqb_eq in DI. subst. exfalso. eapply I. reflexivity.
      * destruct c as [[] [] [] [] [] [] [] []]; try discriminate DV; try discriminate DI; destruct r; reflexivity.
  - rewrite (not_dash W arg f N), X. reflexivity.
  - rewrite (not_dash W arg f N), X. reflexivity.
Qed.

Lemma dash_dec arg : dash arg \/ ~ dash arg.
Proof.
  destruct (starts_with (b "-") arg) eqn:S; [left|right].
  - apply starts_with_iff in S. exact S.
  - intros D. assert (T : starts_with (b "-") arg = true) by (apply starts_with_iff; exact D). congruence.
Qed.
Lemma prefix_dec (p arg : bytes) : (exists r, arg = p ++ r) \/ (forall r, arg <> p ++ r).
Proof.
  destruct (starts_with p arg) eqn:S; [left|right].
  - apply starts_with_iff in S. exact S.
  - intros r D. assert (T : starts_with p arg = true) by (apply starts_with_iff; exists r; exact D). congruence.
Qed.

Theorem understood_some W arg : exists c, understood W arg c.
Proof.
  destruct (dash_dec arg) as [D|D].
  - destruct (second_piece (b "--") arg) as [t|] eqn:S.
    + apply second_long in S. destruct (existsb (beq t) target_names) eqn:T.
      * exists (Target t). apply u_target; [exact D|exact S|apply mem_iff, T].
      * destruct (existsb (beq t) document_options) eqn:N.
        -- exists NoDocument. eapply u_nodoc; [exact D|exact S|apply mem_iff, N].
        -- exists Wrong. eapply u_long; [exact D|exact S| |]; rewrite <- mem_iff; congruence.
    + apply second_none in S. destruct (prefix_dec (b "-I") arg) as [[r ->]|I].
      { exists (Include r). apply u_include, S. }
      destruct (beq arg (b "-")) eqn:A.
      { apply beq_eq in A. subst. exists Stdin. apply u_stdin. }
      assert (A' : arg <> b "-") by (intros ->; discriminate).
      destruct (prefix_dec (b "-v") arg) as [[r ->]|V].
      * destruct r as [|c r]; [exists Version; apply u_version; [exact S|left; reflexivity]|].
        destruct (dash_dec (c :: r)) as [E|E]; [exists Version; apply u_version; [exact S|right; exact E]|].
        exists Wrong. apply u_short; auto. intros r' Q. apply app_inv_head in Q. subst. split; [discriminate|exact E].
      * exists Wrong. apply u_short; auto. intros r Q. exfalso. eapply V, Q.
  - destruct (w_exists W arg) eqn:X; [exists (Source arg); apply u_file|exists Wrong; apply u_missing]; auto.
Qed.

Theorem understood_unique W arg c c' : understood W arg c -> understood W arg c' -> c = c'.
Proof.
  intros H H'.
  pose proof (understood_effect W arg c (Config [b "x"] [] [] false true) H) as A.
  rewrite (understood_effect W arg c' (Config [b "x"] [] [] false true) H') in A.
  assert (T : forall t, understood W arg (Target t) -> t <> []).
  { intros t Q. inversion Q; subst. cbn in *. intuition congruence. }
  destruct c, c'; cbn in A; try discriminate A; inversion A; subst; try reflexivity;
    exfalso; eapply T; eauto.
Qed.

(** ** All of them *)

Lemma effects_ok W args cs : Forall2 (understood W) args cs -> Forall (fun c => stops c = None) cs -> forall f,
  exists f', read_args W args f = inl f' /\
    files f' = files f ++ sources cs /\
    target f' = last (targets_of cs) (target f) /\
    include_dirs f' = fold_left (fun set d => bt_insert path_cmp d set) (dirs_of cs) (include_dirs f) /\
    (from_stdin f' = true <-> from_stdin f = true \/ In Stdin cs) /\
    (is_doc f' = false <-> is_doc f = false \/ In NoDocument cs).
Proof.
  induction 1 as [|arg c args cs U _ IH]; intros S f.
  - exists f. cbn. rewrite app_nil_r. tauto.
  - inversion S as [|? ? S1 S2]; subst. cbn [read_args]. rewrite (understood_effect W arg c f U).
    assert (L : forall t, last (t :: targets_of cs) (target f) = last (targets_of cs) t).
    { intros t. generalize (target f) as d. induction (targets_of cs) as [|x l IHl] using rev_ind; intros d; [reflexivity|].
      change (t :: l ++ [x]) with ((t :: l) ++ [x]). rewrite !last_last. reflexivity. }
    destruct c; cbn in S1; try discriminate S1; cbn [effect];
      match goal with |- context [read_args W args ?g] => destruct (IH S2 g) as [f' [R [A [B [C [D F]]]]]] end;
      exists f'; (split; [exact R|]); cbn [files target include_dirs from_stdin is_doc] in *;
      cbn [sources dirs_of targets_of flat_map app]; fold (sources cs); fold (dirs_of cs); fold (targets_of cs);
      rewrite ?L; cbn [fold_left];
      (split; [rewrite A, <- ?app_assoc; reflexivity|]); (split; [exact B|]); (split; [exact C|]);
      rewrite D, F; cbn [In]; split; split; intros; repeat match goal with H : _ \/ _ |- _ => destruct H end; auto; discriminate.
Qed.

Lemma effects_stop W before cs arg c code after f : Forall2 (understood W) before cs ->
  Forall (fun c => stops c = None) cs -> understood W arg c -> stops c = Some code ->
  read_args W (before ++ arg :: after) f = inr code.
Proof.
  intros H S U C. revert f. induction H as [|a x before cs V _ IH]; intros f.
  - cbn [app read_args]. rewrite (understood_effect W arg c f U). destruct c; inversion C; reflexivity.
  - inversion S; subst. cbn [app read_args]. rewrite (understood_effect W a x f V).
    destruct x; cbn in *; try discriminate; apply IH; assumption.
Qed.

Theorem main_stops W fuel before cs arg c code after : Forall2 (understood W) before cs ->
  Forall (fun c => stops c = None) cs -> understood W arg c -> stops c = Some code ->
  main W fuel (before ++ arg :: after) = ([], Exit code).
Proof. intros H S U C. unfold main. rewrite (effects_stop W before cs arg c code after _ H S U C). reflexivity. Qed.

Lemma targets_known W args cs : Forall2 (understood W) args cs -> Forall (fun t => In t target_names) (targets_of cs).
Proof.
  induction 1 as [|arg c args cs U _ IH]; [constructor|]. cbn [targets_of flat_map]. fold (targets_of cs).
  destruct c; try exact IH. constructor; [|exact IH]. inversion U; assumption.
Qed.
Lemma last_in {A} (l : list A) d : l <> [] -> In (last l d) l.
Proof.
  intros N. destruct (exists_last N) as [l' [x ->]]. rewrite last_last. apply in_or_app. right. left. reflexivity.
Qed.

Theorem main_untargeted W fuel args cs : Forall2 (understood W) args cs ->
  Forall (fun c => stops c = None) cs -> targets_of cs = [] -> main W fuel args = ([], Exit 1).
Proof.
  intros H S T. unfold main. destruct (effects_ok W args cs H S defaults) as [f [R [A [B _]]]].
  rewrite R, B, T. reflexivity.
Qed.

Lemma renders_formatted printable t doc tree s : In t target_names ->
  exists r, formatted printable t doc tree s = inl r /\
    renders printable (fun i => snd (nth i (g_sources (x_world s)) ([], []))) tree t doc r.
Proof.
  intros I. cbn in I. destruct I as [<-|[<-|[<-|[<-|[<-|[]]]]]]; destruct doc; eexists; (split; [reflexivity|]); constructor.
Qed.

Lemma prints_jobs W fuel f l : In (target f) target_names -> forall n,
  prints W fuel (target f) (is_doc f) (include_set (include_dirs f)) n l
    (fst (run_jobs W fuel f n l)) (snd (run_jobs W fuel f n l)).
Proof.
  intros T. induction l as [|job l IH]; intros n; [constructor|].
  cbn [run_jobs]. set (E := with_includes _ _).
  assert (Q : (match job with Some p => (p, e_read E p) | None => (b "<stdin>", w_stdin W) end) = source_of W (w_env W n) job)
    by (destruct job; reflexivity).
  rewrite Q. clear Q. destruct (source_of W (w_env W n) job) as [name [text|]] eqn:O;
    [|apply (p_fail _ _ _ _ _ _ _ _ None); [eapply t_unread, O|reflexivity]].
  destruct (expand E fuel name text) as [[tree s]|e|p| |] eqn:X.
  - destruct (renders_formatted (w_printable W) (target f) (is_doc f) tree s T) as [r [-> R]].
    pose proof (t_renders W fuel (target f) (is_doc f) _ n job name text tree s r O X R) as TR.
    destruct r as [g| |p| |]; try (eapply p_fail; [exact TR|reflexivity]).
    specialize (IH (S n)). destruct (run_jobs W fuel f (S n) l) as [out e]. cbn [fst snd] in *.
    change (g ++ LF :: out) with (g ++ [LF] ++ out). eapply p_next; [exact TR|exact IH].
  - eapply p_fail; [eapply t_fails; [exact O|exact X|discriminate]|reflexivity].
  - eapply p_fail; [eapply t_fails; [exact O|exact X|discriminate]|reflexivity].
  - eapply p_fail; [eapply t_fails; [exact O|exact X|discriminate]|reflexivity].
  - eapply p_fail; [eapply t_fails; [exact O|exact X|discriminate]|reflexivity].
Qed.

(** ** The search path *)

Notation increasing := (StronglySorted (fun p q => path_cmp p q = Lt)).
Definition firsts (given l : list bytes) : Prop := forall d, In d l <-> exists before after,
  given = before ++ d :: after /\ Forall (fun d' => ~ same_path d' d) before.

Lemma same_dec p q : same_path p q \/ ~ same_path p q.
Proof. unfold same_path. destruct (path_cmp p q); [left; reflexivity|right; discriminate|right; discriminate]. Qed.
Lemma same_refl p : same_path p p.
Proof. apply path_cmp_eq. reflexivity. Qed.
Lemma same_sym p q : same_path p q -> same_path q p.
Proof. unfold same_path. rewrite !path_cmp_eq. auto. Qed.
Lemma same_trans p q r : same_path p q -> same_path q r -> same_path p r.
Proof. unfold same_path. rewrite !path_cmp_eq. congruence. Qed.

Lemma first_same given d : In d given -> exists d' before after,
  given = before ++ d' :: after /\ Forall (fun x => ~ same_path x d') before /\ same_path d' d.
Proof.
  induction given as [|x given IH]; intros I; [destruct I|]. destruct (same_dec x d) as [S|S].
  - exists x, [], given. repeat split; [constructor|exact S].
  - destruct I as [->|I]; [exfalso; apply S, same_refl|]. destruct (IH I) as [d' [be [af [-> [F Q]]]]].
    exists d', (x :: be), af. split; [reflexivity|]. split; [|exact Q]. constructor; [|exact F].
    intros X. apply S. eapply same_trans; eauto.
Qed.

Lemma insert_in x l : increasing l -> forall y, In y (bt_insert path_cmp x l) <->
  In y l \/ y = x /\ Forall (fun z => ~ same_path z x) l.
Proof.
  induction l as [|z l IH]; intros S y; cbn [bt_insert].
  - cbn. intuition.
  - inversion S as [|? ? S1 M]; subst. destruct (path_cmp x z) eqn:C.
    + split; [auto|]. intros [I|[-> F]]; [exact I|]. inversion F; subst. exfalso. apply H1, same_sym, C.
    + cbn [In]. split; [|intuition]. intros [<-|I]; [|left; exact I]. right. split; [reflexivity|].
      constructor; [intros Q; apply same_sym in Q; unfold same_path in Q; congruence|].
      rewrite Forall_forall in *. intros u U Q. apply same_sym in Q. unfold same_path in Q.
      rewrite (path_cmp_lt_trans x z u C (M u U)) in Q. discriminate.
    + cbn [In]. rewrite (IH S1). split.
      * intros [<-|[I|[-> F]]]; [auto|auto|]. right. split; [reflexivity|]. constructor; [|exact F].
        intros Q. apply same_sym in Q. unfold same_path in Q. congruence.
      * intros [[<-|I]|[-> F]]; [auto|auto|]. inversion F; subst. auto.
Qed.

Lemma firsts_insert given l x : firsts given l -> increasing l -> firsts (given ++ [x]) (bt_insert path_cmp x l).
Proof.
  intros F S d. rewrite (insert_in x l S). split.
  - intros [I|[-> N]].
    + apply F in I as [be [af [-> Q]]]. exists be, (af ++ [x]). split; [rewrite <- app_assoc; reflexivity|exact Q].
    + exists given, []. split; [reflexivity|]. rewrite Forall_forall in *. intros u U Q.
      destruct (first_same given u U) as [d' [be [af [G [P Q']]]]]. assert (I : In d' l) by (apply F; eauto).
      apply (N d' I). eapply same_trans; eauto.
  - intros [be [af [G P]]]. destruct af as [|w af].
    + apply app_inj_tail in G as [-> ->]. right. split; [reflexivity|]. rewrite Forall_forall in *.
      intros z Z. apply F in Z as [be' [af [-> _]]]. apply P. apply in_or_app. right. left. reflexivity.
    + left. apply F. destruct (@exists_last _ (w :: af)) as [af' [y E]]; [discriminate|]. rewrite E in G.
      change (be ++ d :: af' ++ [y]) with (be ++ (d :: af') ++ [y]) in G. rewrite app_assoc in G.
      apply app_inj_tail in G as [-> _]. exists be, af'. split; [reflexivity|exact P].
Qed.

Lemma fold_firsts dirs : forall given l, firsts given l -> increasing l ->
  firsts (given ++ dirs) (fold_left (fun set d => bt_insert path_cmp d set) dirs l) /\
  increasing (fold_left (fun set d => bt_insert path_cmp d set) dirs l).
Proof.
  induction dirs as [|x dirs IH]; intros given l F S; cbn [fold_left].
  - rewrite app_nil_r. auto.
  - replace (given ++ x :: dirs) with ((given ++ [x]) ++ dirs) by (rewrite <- app_assoc; reflexivity).
    apply IH; [apply firsts_insert; auto|].
    apply bt_insert_increasing; [apply path_cmp_sym|apply path_cmp_lt_trans|exact S].
Qed.

Lemma increasing_firsts l : increasing l -> firsts l l.
Proof.
  intros S d. split.
  - intros I. apply in_split in I as [be [af ->]]. exists be, af. split; [reflexivity|].
    induction be as [|x be IH]; [constructor|]. cbn in S. inversion S as [|? ? S1 M]; subst. constructor; [|auto].
    rewrite Forall_forall in M. intros Q. unfold same_path in Q. rewrite (M d) in Q; [discriminate|].
    apply in_or_app. right. left. reflexivity.
  - intros [be [af [-> _]]]. apply in_or_app. right. left. reflexivity.
Qed.

Lemma firsts_cons p given l : firsts given l -> increasing l -> forall m, firsts (p :: l) m -> firsts (p :: given) m.
Proof.
  intros F S m M d. rewrite (M d). split; intros [be [af [G P]]].
  - destruct be as [|x be]; cbn in G; injection G as -> G.
    + exists [], given. split; [reflexivity|constructor].
    + inversion P; subst x0 l0. assert (I : In d l) by (rewrite G; apply in_or_app; right; left; reflexivity).
      apply F in I as [be' [af' [-> P']]]. exists (x :: be'), af'. split; [reflexivity|]. constructor; auto.
  - destruct be as [|x be]; cbn in G; injection G as -> G.
    + exists [], l. split; [reflexivity|constructor].
    + inversion P; subst x0 l0. assert (I : In d l) by (apply F; eauto).
      apply (increasing_firsts l S) in I as [be' [af' [-> P']]]. exists (x :: be'), af'. split; [reflexivity|].
      constructor; auto.
Qed.

Theorem search_set cs D : D = fold_left (fun set d => bt_insert path_cmp d set) (dirs_of cs) [] ->
  search_path cs (include_set D).
Proof.
  intros ->. destruct (fold_firsts (dirs_of cs) [] []) as [F S].
  { intros d. split; [intros []|]. intros [[|] [? [? _]]]; discriminate. }
  { constructor. }
  destruct (fold_firsts (fold_left (fun set d => bt_insert path_cmp d set) (dirs_of cs) []) [b "."] [b "."]) as [F' S'].
  { apply increasing_firsts. repeat constructor. }
  { repeat constructor. }
  split; [exact S'|]. exact (firsts_cons _ _ _ F S _ F').
Qed.

Lemma search_unique cs l l' : search_path cs l -> search_path cs l' -> l = l'.
Proof.
  intros [S M] [S' M']. assert (Q : forall d, In d l <-> In d l') by (intros d; rewrite M, M'; reflexivity).
  clear M M'. revert l' S' Q. induction l as [|x l IH]; intros [|y l'] S' Q.
  - reflexivity.
  - destruct (proj2 (Q y) (or_introl eq_refl)).
  - destruct (proj1 (Q x) (or_introl eq_refl)).
  - inversion S as [|? ? S1 N]; inversion S' as [|? ? S1' N']; subst. rewrite Forall_forall in N, N'.
    assert (NR : forall p, path_cmp p p <> Lt). { intros p. rewrite (proj2 (path_cmp_eq p p) eq_refl). discriminate. }
    assert (E : x = y).
    { destruct (proj1 (Q x) (or_introl eq_refl)) as [|I]; [congruence|]. destruct (proj2 (Q y) (or_introl eq_refl)) as [|I']; [congruence|].
      exfalso. apply (NR x). eapply path_cmp_lt_trans; [apply N, I'|apply N', I]. }
    subst y. f_equal. apply IH; auto. intros d. split; intros I.
    + destruct (proj1 (Q d) (or_intror I)) as [<-|J]; [|exact J]. exfalso. exact (NR _ (N _ I)).
    + destruct (proj2 (Q d) (or_intror I)) as [<-|J]; [|exact J]. exfalso. exact (NR _ (N' _ I)).
Qed.

Theorem main_prints W fuel args cs ts t : Forall2 (understood W) args cs ->
  Forall (fun c => stops c = None) cs -> targets_of cs = ts ++ [t] ->
  exists l doc path, jobs cs l /\ as_document cs doc /\ search_path cs path /\
    prints W fuel t doc path 0 l (fst (main W fuel args)) (snd (main W fuel args)).
Proof.
  intros H S T. unfold main. destruct (effects_ok W args cs H S defaults) as [f [R [A [B [C [D F]]]]]].
  rewrite R. rewrite T, last_last in B. cbn [defaults files target include_dirs from_stdin is_doc] in *.
  assert (I : In t target_names).
  { pose proof (targets_known W args cs H) as K. rewrite T in K. apply Forall_app in K as [_ K]. inversion K. assumption. }
  rewrite B. assert (N : beq t [] = false).
  { destruct (beq t []) eqn:Q; [|reflexivity]. apply beq_eq in Q. rewrite Q in I. exfalso. clear - I. cbn in I. intuition discriminate. }
  rewrite N. rewrite <- B in I.
  eexists _, (is_doc f), (include_set (include_dirs f)). split; [|split; [|split]].
  4: { rewrite <- B. apply prints_jobs, I. }
  - rewrite A. cbn [app]. unfold jobs, wants_stdin. destruct (sources cs) as [|x l] eqn:Q.
    + left. split; [right; reflexivity|reflexivity].
    + destruct (from_stdin f); [left|right]; (split; [|reflexivity]).
      * left. destruct D as [D _]. destruct (D eq_refl); [discriminate|assumption].
      * intros [K|K]; [|discriminate]. destruct D as [_ D]. specialize (D (or_intror K)). discriminate.
  - unfold as_document. rewrite F. split; [intros [K|K]; [discriminate|exact K]|auto].
  - apply search_set, C.
Qed.

Lemma translates_fun W fuel t doc path n job r r' :
  translates W fuel t doc path n job r -> translates W fuel t doc path n job r' -> r = r'.
Proof.
  assert (R : forall p s tr d x y, renders p s tr t d x -> renders p s tr t d y -> x = y).
  { intros p s tr d x y X Y. inversion X; subst; inversion Y; subst; try reflexivity;
      match goal with H : b _ = b _ |- _ => exfalso; vm_compute in H; discriminate H end. }
  intros H H'. destruct H as [na A|na tx q A B C|na tx tr s q A B C]; destruct H' as [na' A'|na' tx' q' A' B' C'|na' tx' tr' s' q' A' B' C'];
    rewrite A in A'; inversion A'; subst; try reflexivity.
  - exfalso. eapply C, B'.
  - exfalso. eapply C', B.
  - rewrite B in B'. inversion B'; subst. f_equal. eapply R; eassumption.
Qed.
Theorem prints_fun W fuel t doc path n l out e out' e' :
  prints W fuel t doc path n l out e -> prints W fuel t doc path n l out' e' -> out = out' /\ e = e'.
Proof.
  intros H. revert out' e'. induction H as [n|n job l text out e A _ IH|n job l r e A B]; intros out' e' H'; inversion H'; subst.
  - auto.
  - match goal with X : translates _ _ _ _ _ _ _ _ |- _ => pose proof (translates_fun _ _ _ _ _ _ _ _ _ A X) as Q; inversion Q; subst end.
    match goal with X : prints _ _ _ _ _ _ _ _ _ |- _ => destruct (IH _ _ X) as [-> ->] end. auto.
  - match goal with X : translates _ _ _ _ _ _ _ _ |- _ => pose proof (translates_fun _ _ _ _ _ _ _ _ _ A X) as Q; subst end. discriminate.
  - match goal with X : translates _ _ _ _ _ _ _ (Some (Ok _)) |- _ => pose proof (translates_fun _ _ _ _ _ _ _ _ _ A X) as Q; subst end. discriminate.
  - match goal with X : translates _ _ _ _ _ _ _ ?q, Y : ends _ _ ?q = Some e' |- _ => pose proof (translates_fun _ _ _ _ _ _ _ _ _ A X) as Q; subst end.
    split; [reflexivity|congruence].
Qed.
