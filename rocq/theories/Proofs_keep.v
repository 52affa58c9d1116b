(** * What expansion preserves *)

From Coq Require Import String List Ascii Bool Arith NArith ZArith Lia Permutation.
From Verif Require Import Text Lossy Res Ast Args Env Scope State Bind Numbers Paths Data Sorting Expander Parser
  Spec_args Spec_expand Spec_bind Spec_keep Proofs_args Proofs_text Proofs_ast Proofs_run Proofs_sort.
Import ListNotations.

Lemma later_refl s : later s s.
Proof.
  constructor; try lia; exists []; rewrite ?app_nil_r; auto.
Qed.

Lemma extends_refl N : extends N N.
Proof. exists []. rewrite app_nil_r. reflexivity. Qed.
Lemma extends_trans N M K : extends N M -> extends M K -> extends N K.
Proof. intros [l ->] [m ->]. exists (l ++ m). rewrite app_assoc. reflexivity. Qed.
Lemma extends_le N M : extends N M -> length N <= length M.
Proof. intros [l ->]. rewrite app_length. lia. Qed.
Lemma later_size s s' : later s s' -> size s <= size s'.
Proof. intros [_ H _ _ _ _]. apply extends_le, H. Qed.

Lemma later_trans s1 s2 s3 : later s1 s2 -> later s2 s3 -> later s1 s3.
Proof.
  intros A B. pose proof (later_size _ _ A) as SA. pose proof (later_size _ _ B) as SB.
  destruct A as [[l1 A1] [l2 A2] [l3 [A3 A4]] A5 A6 A7].
  destruct B as [[m1 B1] [m2 B2] [m3 [B3 B4]] B5 B6 B7].
  constructor; try lia.
  - exists (l1 ++ m1). rewrite B1, A1, app_assoc. reflexivity.
  - exists (l2 ++ m2). rewrite B2, A2, app_assoc. reflexivity.
  - exists (m3 ++ l3). rewrite B3, A3, app_assoc. split; [reflexivity|].
    apply Forall_app. split; eapply Forall_impl; try eassumption; cbn; intros; lia.
Qed.

Ltac same_world := constructor; cbn; try lia; exists []; rewrite ?app_nil_r; auto.

Lemma later_defs d s : later s (set_defs d s).
Proof. same_world. Qed.
Lemma later_world s s' : x_world s' = x_world s -> later s s'.
Proof. intros H. constructor; unfold srcs; rewrite ?H; try lia; exists []; rewrite ?H, ?app_nil_r; auto. Qed.
Lemma later_maps n s : later s (new_maps n s).
Proof. same_world. Qed.
Lemma later_order s : later s (order_matters s).
Proof. same_world. Qed.
Lemma later_log_line st t s : later s (log_line st t s).
Proof.
  constructor; cbn; try lia; [exists [(st, t)]; reflexivity|exists []; rewrite ?app_nil_r; auto ..].
Qed.
Lemma later_touch c s : later s (touch c s).
Proof. unfold touch. destruct (_ =? _); [apply later_refl|same_world]. Qed.
Lemma later_register n s : later s (snd (register n s)).
Proof. apply later_world. reflexivity. Qed.
Lemma later_add p t s : later s (snd (add_source p t s)).
Proof.
  constructor; cbn; try lia; [exists []; rewrite ?app_nil_r; auto|exists [(p, t)]; reflexivity|exists []; auto].
Qed.

(** Leaving a subcontext. *)
Lemma later_frame s s1 :
  later (State (x_defs s) (vec_clone (x_vec s)) (x_world s)) s1 ->
  later s (State (x_defs s) (x_vec s) (free_from (length (g_sources (x_world s))) (x_world s1))).
Proof.
  intros A. pose proof (later_size _ _ A) as SA. unfold size, srcs in SA. cbn in SA.
  destruct A as [A1 A2 [l3 [A3 A4]] A5 A6 A7]. cbn in *.
  constructor; cbn; auto.
  eexists. rewrite A3, app_assoc. split; [reflexivity|]. apply Forall_app. unfold size, srcs in *. cbn in *.
  split; [|exact A4]. apply Forall_forall. intros i I. apply in_seq in I. lia.
Qed.

(** A result satisfies [P], or is an error of the expander at a good site, or
    no result. *)
Definition ensuring (oke : site -> Prop) {A} (r : res A) (P : A -> Prop) : Prop :=
  match r with Ok a => P a | Err (EErr k st) => expander_kind k = true /\ oke st | _ => True end.

Section Keep.
Variable okv okw : bytes -> Prop.
Variable oks : sources -> site -> Prop.
Variable okm : sources -> Prop.
Variable E : env.
Hypothesis R : respected okv okw oks okm E.

Notation good := (good okv okw oks).
Notation good_atom := (good_atom okv okw oks).
Notation goods N := (Forall (good N)).
Notation good_state := (good_state okv okw oks okm).
Notation ensures := (ensuring (Spec_keep.good_site oks okm)).
Notation good_defs := (good_defs okv okw oks).
Notation good_macro := (good_macro okv okw oks).

Lemma ens_ok {A} (a : A) (P : A -> Prop) : P a -> ensures (Ok a) P.
Proof. intros H. exact H. Qed.
Lemma ens_bind {A B} (r : res A) (k : A -> res B) P Q :
  ensures r P -> (forall a, P a -> ensures (k a) Q) -> ensures (bind r k) Q.
Proof. intros H K. destruct r as [a| | | |]; try exact H; try exact I. apply K, H. Qed.
Lemma ens_impl {A} (r : res A) (P Q : A -> Prop) : ensures r P -> (forall a, P a -> Q a) -> ensures r Q.
Proof. intros H K. destruct r as [a| | | |]; try exact H; try exact I. apply K, H. Qed.
Lemma ens_err {A} k st N (P : A -> Prop) : expander_kind k = true -> okm N -> oks N st -> ensures (error k st) P.
Proof. intros A0 A1 A2. split; [exact A0|]. exists N. auto. Qed.

Lemma fold_and {A} (P : A -> Prop) l : fold_right and True (map P l) <-> Forall P l.
Proof.
  induction l as [|x l IH]; cbn; [split; constructor|]. rewrite IH. split.
  - intros [H1 H2]. constructor; assumption.
  - intros H. inversion H; subst. auto.
Qed.

Lemma good_lst N ns st ew es w :
  good N (Lst ns st ew es w) <-> goods N ns /\ oks N st /\ okw ew /\ oks N es /\ okw w.
Proof. cbn. rewrite fold_and. reflexivity. Qed.

Lemma good_more N M : extends N M -> forall n, good N n -> good M n.
Proof.
  intros L. induction n as [a|a|a|a|ns st ew es w IH|k v st w IH] using node_ind'.
  1-4: cbn; intros [A [B C]]; (split; [exact A|split; [exact (r_more _ _ _ _ _ R _ _ _ L B)|exact C]]).
  - rewrite !good_lst. intros [A [B [C [D F]]]]. split.
    + rewrite Forall_forall in *. intros x I. apply IH; [exact I|]. auto.
    + split; [exact (r_more _ _ _ _ _ R _ _ _ L B)|]. split; [exact C|].
      split; [exact (r_more _ _ _ _ _ R _ _ _ L D)|exact F].
  - cbn. intros [A [B [C D]]]. split; [exact A|]. split; [apply IH, B|].
    split; [exact (r_more _ _ _ _ _ R _ _ _ L C)|exact D].
Qed.
Lemma goods_more N M ns : extends N M -> goods N ns -> goods M ns.
Proof. intros L. apply Forall_impl. intros n. apply good_more, L. Qed.
Lemma defs_more N M d : extends N M -> good_defs N d -> good_defs M d.
Proof. intros L H k m G. destruct (H k m G). split; eapply goods_more; eauto. Qed.

Lemma good_set_ws N w n : okw w -> good N n -> good N (set_ws w n).
Proof.
  intros W. destruct n as [a|a|a|a|ns st ew es w'|k v st w']; cbn.
  1-4: intros [A [B C]]; (split; [exact A|split; [exact B|exact W]]).
  - tauto.
  - tauto.
Qed.
Lemma goods_first N w ns : okw w -> goods N ns -> goods N (set_first_ws w ns).
Proof. intros W H. destruct H; cbn; constructor; [apply good_set_ws; assumption|assumption]. Qed.
Lemma good_ws N n : good N n -> okw (leading_ws n).
Proof.
  destruct n as [a|a|a|a|ns st ew es w'|k v st w']; cbn; try tauto.
  1-4: intros [A [B C]]; exact C.
Qed.
Lemma good_site N n : good N n -> oks N (node_site n).
Proof.
  destruct n as [a|a|a|a|ns st ew es w'|k v st w']; cbn; try tauto.
  1-4: intros [A [B C]]; exact B.
Qed.
Lemma good_atomic N n a : good N n -> atomic n = Some a -> good_atom N a.
Proof. destruct n; cbn; intros H Q; inversion Q; subst; exact H. Qed.
Lemma good_list N n ns : good N n -> list_of n = Some ns -> goods N ns.
Proof. destruct n; try discriminate. rewrite good_lst. intros H Q. inversion Q; subst. tauto. Qed.
Lemma good_here N c v : good N (c_node c) -> okv v -> good_atom N (here c v).
Proof.
  intros H V. split; [exact V|]. split; [apply good_site, H|exact (good_ws N _ H)].
Qed.

Lemma defs_put N k m d : good_macro N m -> good_defs N d -> good_defs N (put k m d).
Proof.
  intros M D k' m' G. destruct (beq k' k) eqn:Q.
  - apply beq_eq in Q. subst. rewrite get_put_same in G. inversion G; subst. exact M.
  - apply beq_neq in Q. rewrite get_put_other in G by exact Q. apply (D k' m' G).
Qed.
Lemma var_good N ns : goods N ns -> good_macro N (variable ns).
Proof. intros H. split; [constructor|exact H]. Qed.

(** ** Outcomes *)
Definition after (s s' : state) : Prop := later s s' /\ good_state s'.
Definition post (s : state) (p : list node * state) : Prop :=
  after s (snd p) /\ goods (srcs (snd p)) (fst p).

Lemma after_refl s : good_state s -> after s s.
Proof. intros H. split; [apply later_refl|exact H]. Qed.
Lemma after_trans s s1 s2 : after s s1 -> after s1 s2 -> after s s2.
Proof. intros [A B] [C D]. split; [eapply later_trans; eauto|exact D]. Qed.
Lemma after_srcs s s1 : after s s1 -> extends (srcs s) (srcs s1).
Proof. intros [A _]. apply A. Qed.
Lemma after_goods s s1 ns : after s s1 -> goods (srcs s) ns -> goods (srcs s1) ns.
Proof. intros A. apply goods_more, after_srcs, A. Qed.
Lemma after_good s s1 n : after s s1 -> good (srcs s) n -> good (srcs s1) n.
Proof. intros A. apply good_more, after_srcs, A. Qed.
Lemma after_world s s' : good_state s -> x_defs s' = x_defs s -> x_world s' = x_world s -> after s s'.
Proof.
  intros G D W. split; [apply later_world, W|]. unfold good_state, Spec_keep.good_state, srcs.
  rewrite D, W. exact G.
Qed.
Lemma after_touch c s : good_state s -> after s (touch c s).
Proof.
  intros G. split; [apply later_touch|]. unfold touch. destruct (_ =? _); exact G.
Qed.
Lemma after_defs d s : good_state s -> good_defs (srcs s) d -> after s (set_defs d s).
Proof. intros O G. split; [apply later_defs|split; [exact (proj1 O)|exact G]]. Qed.
Lemma log_more N M l : extends N M -> good_log okv oks N l -> good_log okv oks M l.
Proof.
  intros H. apply Forall_impl. intros [st t] [O V]. split; [exact (r_more _ _ _ _ _ R _ _ _ H O)|exact V].
Qed.
Lemma after_maps n s : good_state s -> after s (new_maps n s).
Proof. intros G. split; [apply later_maps|exact G]. Qed.
Lemma after_put k m s : good_state s -> good_macro (srcs s) m -> after s (set_defs (put k m (x_defs s)) s).
Proof. intros G M. apply after_defs; [apply G|]. apply defs_put; [exact M|apply G]. Qed.

Lemma post_bind s (r : out) (k : list node * state -> out) :
  ensures r (post s) ->
  (forall ns s1, after s s1 -> goods (srcs s1) ns -> ensures (k (ns, s1)) (post s1)) ->
  ensures (bind r k) (post s).
Proof.
  intros H K. apply (ens_bind r k (post s)); [exact H|]. intros [ns s1] [A G].
  eapply ens_impl; [apply K; assumption|]. intros [ns2 s2] [A2 G2].
  split; [eapply after_trans; eauto|exact G2].
Qed.
Lemma post_ok s s1 ns : after s s1 -> goods (srcs s1) ns -> ensures (Ok (ns, s1)) (post s).
Proof. intros A G. apply ens_ok. split; assumption. Qed.
Lemma post_after s s1 (r : out) : after s s1 -> ensures r (post s1) -> ensures r (post s).
Proof.
  intros A H. eapply ens_impl; [exact H|]. intros [ns s2] [A2 G2]. split; [eapply after_trans; eauto|exact G2].
Qed.

(** Errors at the site of a good node. *)
Lemma bad_site {A} (N : sources) k st (P : A -> Prop) : expander_kind k = true -> okm N -> oks N st -> ensures (Err (EErr k st)) P.
Proof. intros H0 H1 H2. split; [exact H0|]. exists N. auto. Qed.
Lemma bad_node {A} (N : sources) k n (P : A -> Prop) : expander_kind k = true -> okm N -> good N n -> ensures (Err (EErr k (node_site n))) P.
Proof. intros H0 H1 H2. split; [exact H0|]. exists N. split; [exact H1|]. apply good_site, H2. Qed.
Lemma bad_atom {A} (N : sources) k a (P : A -> Prop) : expander_kind k = true -> okm N -> good_atom N a -> ensures (Err (EErr k (a_site a))) P.
Proof. intros H0 H1 [_ [H2 _]]. split; [exact H0|]. exists N. auto. Qed.
Ltac bad :=
  solve [exact I | discriminate
  | unfold error, call_site;
    match goal with
    | O : okm ?N |- _ => first
        [ eapply (bad_node N); [reflexivity|exact O|eassumption] | eapply (bad_atom N); [reflexivity|exact O|eassumption]
        | eapply (bad_site N); [reflexivity|exact O|eassumption] ]
    | O : good_state ?s |- _ => first
        [ eapply (bad_node (srcs s)); [reflexivity|apply O|eassumption] | eapply (bad_atom (srcs s)); [reflexivity|apply O|eassumption]
        | eapply (bad_site (srcs s)); [reflexivity|apply O|eassumption] ]
    | O : after _ ?s |- _ => first
        [ eapply (bad_node (srcs s)); [reflexivity|apply O|eassumption] | eapply (bad_atom (srcs s)); [reflexivity|apply O|eassumption]
        | eapply (bad_site (srcs s)); [reflexivity|apply O|eassumption] ]
    end].

(** ** Arguments *)
Definition good_value (N : sources) (v : value) : Prop :=
  match v with VAtom a => good_atom N a | VList ns => goods N ns | VNode n => good N n end.
Definition good_parsed (N : sources) (p : parsed) : Prop :=
  Forall (fun x => good N (snd x)) (p_num p) /\ Forall (fun x => good N (snd x)) (p_named p) /\
  goods N (p_rest p).
Definition good_args (N : sources) (x : args) : Prop :=
  Forall (fun y => good_value N (snd y)) (x_args x) /\ Forall (good_value N) (x_rest x).

Lemma check_all_ens N ps n : okm N -> good N n -> ensures (check_all ps n) (fun _ => True).
Proof.
  intros O G. unfold check_all. destruct ps; [exact I|]. destruct (existsb _ _); [exact I|bad].
Qed.
Lemma check_ens N t : okm N -> forall n, good N n -> ensures (check t n) (fun _ => True).
Proof.
  intros O. induction t as [ps|ps|ps|ps|ps|ts IH|ps] using argtype_ind'; intros n G; destruct n;
    cbn [check]; try (eapply check_all_ens; eassumption); try (eapply (bad_node N); [reflexivity|exact O|exact G]).
  destruct (_ && _); [eapply (bad_node N); [reflexivity|exact O|exact G]|]. apply good_lst in G as [G _].
  revert nodes G. induction IH as [|t ts H _ IHts]; intros ns G; [exact I|].
  destruct G as [|n ns G GS]; [exact I|]. apply (ens_bind _ _ (fun _ => True)); [apply H, G|].
  intros _ _. apply IHts, GS.
Qed.

Lemma parse_params_good N rs ps : okm N -> goods N ps -> forall i m acc, good_parsed N acc ->
  ensures (parse_params rs ps i m acc) (fun '(p, _) => good_parsed N p).
Proof.
  intros O. induction 1 as [|p ps G GS IH]; intros i m acc A; cbn [parse_params].
  - apply ens_ok. exact A.
  - assert (K : forall matcher param pos,
      good N param ->
      ensures (match find (rule_matches matcher) (patterns rs) with
      | Some r =>
          let* _ := check (argtype_of (r_arg r)) param in
          let acc :=
            match matcher with
            | PInt i => Parsed ((i, param) :: p_num acc) (p_named acc) (p_rest acc)
            | PStr k => Parsed (p_num acc) ((k, param) :: p_named acc) (p_rest acc)
            end in
          parse_params rs ps pos
            (if is_mandatory (r_arg r) then S m else m) acc
      | None =>
          match trailing rs with
          | Some t =>
              let* _ := check t p in
              parse_params rs ps pos m
                (Parsed (p_num acc) (p_named acc) (p_rest acc ++ [p]))
          | None =>
              Err (EErr (match p with Attr _ _ _ _ => EArgNamed | _ => EArgExcess end)
                        (node_site p))
          end
      end) (fun '(p, _) => good_parsed N p)).
    { intros matcher param pos GP. destruct A as [A1 [A2 A3]]. destruct (find _ _) as [r|].
      - apply (ens_bind _ _ (fun _ => True)); [apply (check_ens N); assumption|].
        intros _ _. cbv zeta. apply IH. destruct matcher; split; cbn; auto.
      - destruct (trailing rs); [|eapply (bad_node N); [destruct p; reflexivity|exact O|exact G]]. apply (ens_bind _ _ (fun _ => True)); [apply (check_ens N); assumption|].
        intros _ _. apply IH.
        split; [exact A1|]. split; [exact A2|]. cbn. apply Forall_app. auto. }
    destruct p; apply K; try exact G. apply G.
Qed.

Lemma assoc_nat_good {A} (P : A -> Prop) i l x :
  Forall (fun y => P (snd y)) l -> assoc_nat i l = Some x -> P x.
Proof.
  induction 1 as [|[j y] l H _ IH]; cbn; [bad|].
  destruct (i =? j); [intros Q; inversion Q; subst; exact H|exact IH].
Qed.
Lemma assoc_good {A} (P : A -> Prop) i l x :
  Forall (fun y => P (snd y)) l -> assoc i l = Some x -> P x.
Proof.
  induction 1 as [|[j y] l H _ IH]; cbn; [bad|].
  destruct (beq i j); [intros Q; inversion Q; subst; exact H|exact IH].
Qed.
Lemma mapr_ensures {A B} (f : A -> res B) (P : A -> Prop) (Q : B -> Prop) l :
  Forall P l -> (forall x, P x -> ensures (f x) Q) -> ensures (mapr f l) (Forall Q).
Proof.
  intros H K. induction H as [|x l H _ IH]; cbn; [apply ens_ok; constructor|].
  apply (ens_bind _ _ Q); [apply K, H|]. intros y HY. apply (ens_bind _ _ (Forall Q)); [exact IH|].
  intros ys HYS. apply ens_ok. constructor; assumption.
Qed.
Lemma convert_good N t n : good N n -> ensures (convert t n) (good_value N).
Proof.
  intros G. unfold convert.
  assert (K : ensures (match atomic n with Some a => Ok (VAtom a) | None => Panic PUnwrap end) (good_value N)).
  { destruct (atomic n) eqn:A; [|bad]. apply ens_ok. exact (good_atomic N n a G A). }
  destruct t; try exact K.
  - destruct (list_of n) eqn:L; [|bad]. apply ens_ok. exact (good_list N n _ G L).
  - apply ens_ok. exact G.
Qed.
Lemma arguments_good N rs c ps : okm N -> good N c -> goods N ps -> ensures (arguments rs c ps) (good_args N).
Proof.
  intros O GC G. unfold arguments. apply (ens_bind _ _ (good_parsed N)).
  - unfold parse_args. apply (ens_bind _ _ (fun '(p, _) => good_parsed N p)).
    + apply parse_params_good; [exact O|exact G|]. repeat split; constructor.
    + intros [p m] H. destruct (_ <? _); [|apply ens_ok, H]. destruct (rev ps) as [|n l] eqn:V; [bad|].
      apply (bad_node N); [reflexivity|exact O|]. rewrite Forall_forall in G. apply G. apply in_rev. rewrite V. left. reflexivity.
  - intros p [P1 [P2 P3]].
    apply (ens_bind _ _ (Forall (Forall (fun y => good_value N (snd y))))).
    + apply mapr_ensures with (P := fun _ => True); [apply Forall_forall; auto|].
      intros [a pos] _. unfold extract_one. destruct (get_param p pos) as [n|] eqn:Q.
      * assert (GN : good N n).
        { destruct pos; cbn in Q; [exact (assoc_nat_good _ _ _ _ P1 Q)|exact (assoc_good _ _ _ _ P2 Q)]. }
        apply (ens_bind _ _ (good_value N)); [apply convert_good, GN|].
        intros v V. apply ens_ok. constructor; [exact V|constructor].
      * destruct (is_mandatory a); [bad|]. apply ens_ok. constructor.
    + intros xs X. apply (ens_bind _ _ (Forall (good_value N))).
      * destruct (trailing rs); [|apply ens_ok; constructor].
        apply mapr_ensures with (P := good N); [exact P3|]. intros n. apply convert_good.
      * intros rest RR. apply ens_ok. split; [|exact RR]. cbn. apply Forall_concat, X.
Qed.
Lemma arg_at_good N pos l v :
  Forall (fun y => good_value N (snd y)) l -> arg_at pos l = Some v -> good_value N v.
Proof.
  induction 1 as [|[j y] l H _ IH]; cbn; [bad|].
  destruct (argpos_eqb pos j); [intros Q; inversion Q; subst; exact H|exact IH].
Qed.
Definition good_opt (N : sources) (o : option atom) : Prop :=
  match o with Some a => good_atom N a | None => True end.
Lemma need_atom_good N pos x : good_args N x -> ensures (need as_atom pos x) (good_atom N).
Proof.
  intros [G _]. unfold need. destruct (arg_at pos (x_args x)) eqn:A; [|bad].
  pose proof (arg_at_good N _ _ _ G A) as V. destruct v; try bad. apply ens_ok, V.
Qed.
Lemma need_node_good N pos x : good_args N x -> ensures (need as_node pos x) (good N).
Proof.
  intros [G _]. unfold need. destruct (arg_at pos (x_args x)) eqn:A; [|bad].
  pose proof (arg_at_good N _ _ _ G A) as V. destruct v; try bad. apply ens_ok, V.
Qed.
Lemma need_list_good N pos x : good_args N x -> ensures (need as_list pos x) (goods N).
Proof.
  intros [G _]. unfold need. destruct (arg_at pos (x_args x)) eqn:A; [|bad].
  pose proof (arg_at_good N _ _ _ G A) as V. destruct v; try bad. apply ens_ok, V.
Qed.
Lemma want_atom_good N pos x : good_args N x -> ensures (want as_atom pos x) (good_opt N).
Proof.
  intros [G _]. unfold want. destruct (arg_at pos (x_args x)) eqn:A; [|apply ens_ok; exact I].
  pose proof (arg_at_good N _ _ _ G A) as V. destruct v; try bad. apply ens_ok, V.
Qed.
Lemma rest_atoms_good N x : good_args N x -> ensures (rest_of as_atom x) (Forall (good_atom N)).
Proof.
  intros [_ G]. apply mapr_ensures with (P := good_value N); [exact G|].
  intros v V. destruct v; try bad. apply ens_ok, V.
Qed.
Lemma rest_nodes_good N x : good_args N x -> ensures (rest_of as_node x) (goods N).
Proof.
  intros [_ G]. apply mapr_ensures with (P := good_value N); [exact G|].
  intros v V. destruct v; try bad. apply ens_ok, V.
Qed.

(** ** Binding *)
Definition good_named (N : sources) (l : list (bytes * node)) : Prop := Forall (fun x => good N (snd x)) l.
Definition good_progress (N : sources) (p : progress) : Prop :=
  goods N (b_rhs p) /\ good_named N (b_rhs_named p) /\ good_named N (b_lhs_named p).

Lemma named_insert_good N k n l : good N n -> good_named N l -> good_named N (named_insert k n l).
Proof.
  intros G. induction 1 as [|[k' n'] l H HS IH]; cbn; [repeat constructor; exact G|].
  destruct (beq k k'); constructor; auto.
Qed.
Lemma named_remove_good N k l : good_named N l -> good_named N (named_remove k l).
Proof. intros G. apply Forall_forall. intros x I. apply filter_In in I. exact (proj1 (Forall_forall _ _) G x (proj1 I)). Qed.
Lemma next_positional_good N rhs : goods N rhs -> forall named n rhs' named', good_named N named ->
  next_positional rhs named = Some (n, rhs', named') -> good N n /\ goods N rhs' /\ good_named N named'.
Proof.
  induction 1 as [|n rhs G GS IH]; intros named n0 rhs' named' GN; cbn; [bad|].
  destruct n; try (intros Q; inversion Q; subst; auto; fail).
  intros Q. eapply IH; [|exact Q]. apply named_insert_good; assumption.
Qed.
Lemma leftover_good N rhs : goods N rhs -> forall named, good_named N named ->
  goods N (fst (leftover rhs named)) /\ good_named N (snd (leftover rhs named)).
Proof.
  induction 1 as [|n rhs G GS IH]; intros named GN; cbn; [auto|].
  destruct n; try (specialize (IH named GN); destruct (leftover rhs named); cbn [fst snd] in *; split;
    [constructor; [exact G|apply IH]|apply IH]).
  apply IH, named_insert_good; assumption.
Qed.
Lemma put_var_after k ns s : good_state s -> goods (srcs s) ns -> after s (put_var k ns s).
Proof. intros G H. apply after_put; [exact G|]. apply var_good, H. Qed.
Lemma bind_named_after N keys lhs : forall rhs s, good_state s -> srcs s = N -> good_named N lhs -> good_named N rhs ->
  after s (snd (bind_named keys lhs rhs s)) /\ srcs (snd (bind_named keys lhs rhs s)) = N /\
  good_named N (fst (bind_named keys lhs rhs s)).
Proof.
  induction keys as [|k keys IH]; intros rhs s G S L RH; cbn [bind_named].
  - split; [apply after_refl, G|]. auto.
  - set (v := match assoc k rhs with Some (Attr _ v _ _) => Some v | _ => assoc k lhs end).
    set (s1 := match v with Some v => put_var k [v] s | None => s end). cbn zeta.
    assert (GV : forall n, v = Some n -> good N n).
    { intros n Q. unfold v in Q.
      assert (D : assoc k lhs = Some n -> good N n) by (apply assoc_good, L).
      destruct (assoc k rhs) as [m|] eqn:A; [|exact (D Q)].
      pose proof (assoc_good (good N) _ _ _ RH A) as M.
      destruct m; try exact (D Q). inversion Q; subst. apply M. }
    assert (A1 : after s s1 /\ srcs s1 = N).
    { unfold s1. destruct v as [n|]; [|split; [apply after_refl, G|exact S]].
      split; [|exact S]. apply put_var_after; [exact G|]. rewrite S. constructor; [apply GV; reflexivity|constructor]. }
    destruct A1 as [A1 S1].
    destruct (IH (named_remove k rhs) s1) as [A2 [S2 G2]].
    + apply A1. + exact S1. + exact L. + apply named_remove_good, RH.
    + split; [eapply after_trans; eauto|]. auto.
Qed.
Lemma entries_good N keys l : good_named N l -> goods N (entries keys l).
Proof.
  intros G. apply Forall_forall. intros x I. apply in_flat_map in I as [k [_ I]].
  destruct (assoc k l) as [n|] eqn:A; [|contradiction]. destruct I as [<-|[]].
  exact (assoc_good (good N) _ _ _ G A).
Qed.
Lemma bind_rest_after seed p s : good_state s -> good_progress (srcs s) p ->
  ensures (bind_rest E seed p s) (fun s' => after s s' /\ srcs s' = srcs s).
Proof.
  intros G [P1 [P2 P3]]. unfold bind_rest.
  pose proof (leftover_good _ _ P1 _ P2) as [L1 L2].
  destruct (leftover (b_rhs p) (b_rhs_named p)) as [rest rhs] eqn:Q. cbn in L1, L2.
  apply (ens_bind _ _ (fun s' => after s s' /\ srcs s' = srcs s)).
  - destruct (b_rest p); [|destruct (rev rest) as [|n l] eqn:V].
    + apply ens_ok. split; [|reflexivity]. apply put_var_after; assumption.
    + apply ens_ok. split; [apply after_refl, G|reflexivity].
    + apply (bad_node (srcs s)); [reflexivity|apply G|]. rewrite Forall_forall in L1. apply L1. apply in_rev.
      rewrite V. left. reflexivity.
  - intros s1 [A1 S1].
    pose proof (bind_named_after (srcs s) (e_order E (S seed) (map fst (b_lhs_named p))) (b_lhs_named p)
      rhs s1 (proj2 A1) S1 P3 L2) as [A2 [S2 G2]].
    destruct (bind_named _ _ _ _) as [rhs2 s2]. cbn in A2, S2, G2.
    assert (A3 : after s s2) by (eapply after_trans; eauto).
    destruct (b_rest_kw p).
    + apply ens_ok. set (s3 := if _ : bool then order_matters s2 else s2).
      assert (A4 : after s s3 /\ srcs s3 = srcs s).
      { unfold s3. destruct (2 <=? _); [|auto]. split; [|exact S2].
        eapply after_trans; [exact A3|]. split; [apply later_order|]. apply A3. }
      destruct A4 as [A4 S4]. split; [|exact S4]. eapply after_trans; [exact A4|].
      apply put_var_after; [apply A4|]. rewrite S4. apply entries_good, G2.
    + pose proof (entries_good (srcs s) (e_order E seed (map fst rhs2)) rhs2 G2) as GE.
      destruct (entries _ _) as [|n l]; [apply ens_ok; auto|]. inversion GE; subst.
      apply (bad_node (srcs s)); [reflexivity|apply G|assumption].
Qed.

Definition binds_well (bnd : node -> node -> state -> res state) (pat : node) : Prop :=
  forall val s, good_state s -> good (srcs s) pat -> good (srcs s) val ->
  ensures (bnd pat val s) (fun s' => after s s' /\ srcs s' = srcs s).

Lemma bind_positional_after bnd st pats : Forall (binds_well bnd) pats -> forall p s,
  good_state s -> oks (srcs s) st -> goods (srcs s) pats -> good_progress (srcs s) p ->
  ensures (bind_positional bnd st pats p s)
    (fun '(p', s') => after s s' /\ srcs s' = srcs s /\ good_progress (srcs s') p').
Proof.
  induction 1 as [|n0 pats B BS IH]; intros p s G ST GP P; cbn [bind_positional].
  - apply ens_ok. split; [apply after_refl, G|]. auto.
  - inversion GP as [|? ? G0 GP']; subst.
    assert (K : ensures (match is_rest_kw n0, is_rest n0 with
          | Some a, _ =>
              match b_rest_kw p with
              | Some _ => Err (EErr EBindMultiRest (node_site n0))
              | None => bind_positional bnd st pats
                          (Progress (b_rhs p) (b_rhs_named p) (b_lhs_named p)
                                    (b_rest p) (Some a)) s
              end
          | None, Some a =>
              match b_rest p with
              | Some _ => Err (EErr EBindMultiRest (node_site n0))
              | None => bind_positional bnd st pats
                          (Progress (b_rhs p) (b_rhs_named p) (b_lhs_named p)
                                    (Some a) (b_rest_kw p)) s
              end
          | None, None =>
              match next_positional (b_rhs p) (b_rhs_named p) with
              | None => Err (EErr EBindTooFew st)
              | Some (n1, rhs, named) =>
                  let* s := bnd n0 n1 s in
                  bind_positional bnd st pats
                    (Progress rhs named (b_lhs_named p) (b_rest p) (b_rest_kw p)) s
              end
          end) (fun '(p', s') => after s s' /\ srcs s' = srcs s /\ good_progress (srcs s') p')).
    { destruct P as [P1 [P2 P3]].
      destruct (is_rest_kw n0).
      - destruct (b_rest_kw p); [bad|]. apply IH; auto. repeat split; assumption.
      - destruct (is_rest n0).
        + destruct (b_rest p); [bad|]. apply IH; auto. repeat split; assumption.
        + destruct (next_positional _ _) as [[[n1 rhs] named]|] eqn:Q; [|bad].
          destruct (next_positional_good _ _ P1 _ _ _ _ P2 Q) as [Q1 [Q2 Q3]].
          apply (ens_bind _ _ (fun s' => after s s' /\ srcs s' = srcs s)); [apply B; assumption|].
          intros s1 [A1 S1]. eapply ens_impl.
          * apply IH; [apply A1| | |]; rewrite S1; [exact ST|exact GP'|]. repeat split; assumption.
          * intros [p' s'] [A2 [S2 G2]]. split; [eapply after_trans; eauto|].
            split; [congruence|exact G2]. }
    destruct n0; try exact K.
    cbn in G0. destruct P as [P1 [P2 P3]]. apply IH; auto. repeat split; auto.
    apply named_insert_good; tauto.
Qed.

Lemma bind_list_with_after bnd st pats vals s : Forall (binds_well bnd) pats ->
  good_state s -> oks (srcs s) st -> goods (srcs s) pats -> goods (srcs s) vals ->
  ensures (bind_list_with E bnd st pats vals s) (fun s' => after s s' /\ srcs s' = srcs s).
Proof.
  intros B G ST GP GV. unfold bind_list_with.
  apply (ens_bind _ _ (fun '(p', s') => after s s' /\ srcs s' = srcs s /\ good_progress (srcs s') p')).
  - eapply ens_impl.
    + apply (bind_positional_after bnd st pats B (Progress vals [] [] None None) (new_maps 2 s)).
      * apply (proj2 (after_maps 2 s G)). * exact ST. * exact GP. * repeat split; [exact GV|constructor|constructor].
    + intros [p' s'] [A [S G']]. split; [|auto]. eapply after_trans; [apply (after_maps 2 s G)|exact A].
  - intros [p s1] [A [S G1]]. eapply ens_impl.
    + apply bind_rest_after; [apply A|exact G1].
    + intros s2 [A2 S2]. split; [eapply after_trans; eauto|congruence].
Qed.

Lemma bind_node_after pat : binds_well (bind_node E) pat.
Proof.
  induction pat as [a|a|a|a|ns st ew es w IH|k v st w IH] using node_ind'; intros val s G GP GV; cbn [bind_node].
  - apply ens_ok. split; [|reflexivity]. apply put_var_after; [exact G|]. constructor; [exact GV|constructor].
  - destruct val; try bad. destruct (beq _ _); [|bad]. apply ens_ok. split; [apply after_refl, G|reflexivity].
  - destruct val; try bad; (destruct (beq _ _); [|bad]); apply ens_ok; (split; [apply after_refl, G|reflexivity]).
  - destruct val; try bad; (destruct (beq _ _); [|bad]); apply ens_ok; (split; [apply after_refl, G|reflexivity]).
  - destruct val; try bad. apply good_lst in GP, GV. apply bind_list_with_after; try tauto.
  - destruct val; try bad. destruct (beq _ _); [|bad]. cbn in GP, GV. apply IH; tauto.
Qed.
Lemma bind_list_after st pats vals s :
  good_state s -> oks (srcs s) st -> goods (srcs s) pats -> goods (srcs s) vals ->
  ensures (bind_list E st pats vals s) (fun s' => after s s' /\ srcs s' = srcs s).
Proof.
  apply bind_list_with_after. apply Forall_forall. intros p _. apply bind_node_after.
Qed.

(** ** Importing data *)
Definition good_sink (N : sources) (k : sink) : Prop :=
  (forall d, y_defining k = Some d -> okv d) /\ goods N (y_nodes k) /\
  Forall (Forall (good N)) (y_parent k) /\ Forall okv (y_prefix k).

Lemma unless_ok ns : okw (unless_first ns).
Proof. destruct ns; [apply (r_w_nil _ _ _ _ _ R)|apply (r_w_blank _ _ _ _ _ R)]. Qed.

Lemma pop_prefix_ok p n q : Forall okv p -> pop_prefix p = (n, q) ->
  (forall x, n = Some x -> okv x) /\ Forall okv q.
Proof.
  intros F. unfold pop_prefix. destruct (rev p) as [|x l] eqn:V; intros Q; inversion Q; subst.
  - split; [bad|constructor].
  - assert (F' : Forall okv (rev p)) by (apply Forall_rev, F). rewrite V in F'. inversion F'; subst.
    split; [intros y Y; inversion Y; subst; assumption|]. apply Forall_rev. assumption.
Qed.

Lemma y_end_good N sep st k d : oks N st -> good_sink N k -> good_defs N d ->
  ensures (y_end sep st k d) (fun '(k', d') => good_sink N k' /\ good_defs N d').
Proof.
  intros ST [K1 [K2 [K3 K4]]] D. unfold y_end.
  destruct (match y_modes k with m :: ms => (Some m, ms) | [] => (None, []) end) as [mode modes].
  destruct (match y_parent k with ns :: ps => (ns, ps) | [] => ([], []) end) as [nodes parent] eqn:P.
  assert (GP : goods N nodes /\ Forall (Forall (good N)) parent).
  { destruct (y_parent k); inversion P; subst; [split; constructor|]. inversion K3; subst. auto. }
  destruct GP as [GN GPA].
  destruct (pop_prefix (y_prefix k)) as [name prefix] eqn:PP.
  destruct (pop_prefix_ok _ _ _ K4 PP) as [ON OP].
  assert (GL : good N (rlist st (y_nodes k) (unless_first nodes))).
  { apply good_lst. repeat split; try assumption; try apply (r_w_nil _ _ _ _ _ R); apply unless_ok. }
  set (lst := rlist st (y_nodes k) (unless_first nodes)) in *.
  assert (GD : good_defs N (match name with
    | Some n => put (qualified sep prefix n) (variable [lst]) d | None => d end)).
  { destruct name; [|exact D]. apply defs_put; [|exact D]. apply var_good. constructor; [exact GL|constructor]. }
  assert (SD : forall d0, (match mode with Some Seq => Some (show_nat (length nodes + 1)) | _ => None end)
     = Some d0 -> okv d0).
  { intros d0 Q. destruct mode as [[]|]; inversion Q; subst. apply (r_nat _ _ _ _ _ R). }
  assert (PL : ensures (Ok (Sink (match mode with Some Seq => Some (show_nat (length nodes + 1)) | _ => None end)
     (nodes ++ [lst]) parent prefix mode modes, match name with
    | Some n => put (qualified sep prefix n) (variable [lst]) d | None => d end))
     (fun '(k', d') => good_sink N k' /\ good_defs N d')).
  { apply ens_ok. split; [|exact GD]. split; [exact SD|]. split; [|split; assumption]. cbn.
    apply Forall_app. split; [exact GN|]. constructor; [exact GL|constructor]. }
  destruct mode as [[]|]; try exact PL.
  destruct name as [n|]; [|bad]. apply ens_ok. split; [|exact GD].
  split; [exact SD|]. split; [|split; assumption]. cbn [y_nodes].
  apply Forall_app. split; [exact GN|]. constructor; [|constructor].
  change (okv n /\ good N (set_ws (b " ") lst) /\ oks N st /\ okw (leading_ws lst)).
  split; [apply ON; reflexivity|]. split; [apply good_set_ws; [apply (r_w_blank _ _ _ _ _ R)|exact GL]|].
  split; [exact ST|]. exact (good_ws N _ GL).
Qed.

Lemma y_event_good N sep st e k d : oks N st -> (forall v, e = YScalar v -> okv v) ->
  good_sink N k -> good_defs N d ->
  ensures (y_event sep st e k d) (fun '(k', d') => good_sink N k' /\ good_defs N d').
Proof.
  intros ST V K D. destruct e as [v| | | | |]; cbn [y_event].
  - specialize (V v eq_refl). destruct K as [K1 [K2 [K3 K4]]].
    assert (GS : good N (Str (Atom v st (b " ")))).
    { split; [exact V|]. split; [exact ST|apply (r_w_blank _ _ _ _ _ R)]. }
    assert (GP : good N (set_ws (unless_first (y_nodes k)) (Str (Atom v st (b " "))))).
    { apply good_set_ws; [apply unless_ok|exact GS]. }
    cbv zeta. destruct (y_defining k) as [name|] eqn:DF.
    + assert (GD : good_defs N (put (qualified sep (y_prefix k) name) (variable [Str (Atom v st (b " "))]) d)).
      { apply defs_put; [|exact D]. apply var_good. constructor; [exact GS|constructor]. }
      destruct (y_mode k) as [[]|]; [| |bad]; apply ens_ok; (split; [|exact GD]).
      * split; [bad|]. split; [|split; assumption]. cbn [y_nodes].
        apply Forall_app. split; [exact K2|]. constructor; [|constructor].
        change (okv name /\ good N (Str (Atom v st (b " "))) /\ oks N st /\ okw (unless_first (y_nodes k))).
        split; [apply K1; reflexivity|]. split; [exact GS|]. split; [exact ST|apply unless_ok].
      * split; [intros d0 Q; inversion Q; apply (r_nat _ _ _ _ _ R)|]. split; [|split; assumption]. cbn [y_nodes].
        apply Forall_app. split; [exact K2|]. constructor; [exact GP|constructor].
    + destruct (y_mode k) as [[]|]; [|bad|]; apply ens_ok; (split; [|exact D]).
      * split; [intros d0 Q; inversion Q; subst; exact V|]. auto.
      * split; [bad|]. split; [|split; assumption]. cbn [y_nodes].
        apply Forall_app. split; [exact K2|]. constructor; [exact GP|constructor].
  - destruct K as [K1 [K2 [K3 K4]]]. apply ens_ok. split; [|exact D].
    split; [bad|]. split; [constructor|]. split; [constructor; assumption|]. cbn.
    destruct (y_defining k); [|exact K4]. apply Forall_app. split; [exact K4|]. constructor; [apply K1; reflexivity|constructor].
  - apply y_end_good; assumption.
  - destruct K as [K1 [K2 [K3 K4]]]. apply ens_ok. split; [|exact D].
    split; [intros d0 Q; inversion Q; apply (r_nat _ _ _ _ _ R 0)|]. split; [constructor|]. split; [constructor; assumption|]. cbn.
    destruct (y_defining k); [|exact K4]. apply Forall_app. split; [exact K4|]. constructor; [apply K1; reflexivity|constructor].
  - apply y_end_good; assumption.
  - apply ens_ok. auto.
Qed.

Lemma y_events_good N sep st es : oks N st -> (forall v, In (YScalar v) es -> okv v) ->
  forall k d, good_sink N k -> good_defs N d ->
  ensures (y_events sep st es k d) (fun '(k', d') => good_sink N k' /\ good_defs N d').
Proof.
  intros ST. induction es as [|e es IH]; intros V k d K D; cbn [y_events].
  - apply ens_ok. auto.
  - apply (ens_bind _ _ (fun '(k', d') => good_sink N k' /\ good_defs N d')).
    + apply y_event_good; auto. intros v ->. apply V. left. reflexivity.
    + intros [k1 d1] [K1 D1]. apply IH; auto. intros v I. apply V. right. exact I.
Qed.

Lemma expand_yaml_good N text sep st d : okm N -> oks N st -> good_defs N d ->
  ensures (expand_yaml E text sep st d) (fun '(r, d') => ensures r (goods N) /\ good_defs N d').
Proof.
  intros O ST D. unfold expand_yaml. pose proof (r_yaml _ _ _ _ _ R text) as Y.
  destruct (e_yaml E text) as [events ok]. cbn in Y.
  apply (ens_bind _ _ (fun '(k', d') => good_sink N k' /\ good_defs N d')).
  - apply y_events_good; auto. split; [bad|]. repeat constructor.
  - intros [k d'] [K D']. apply ens_ok. split; [|exact D'].
    destruct ok; [|bad]. apply ens_ok, K.
Qed.

Lemma toml_ws_ok l : okw (toml_ws l).
Proof. destruct l; [apply (r_w_nil _ _ _ _ _ R)|apply (r_w_blank _ _ _ _ _ R)]. Qed.

Fixpoint toml_ind' (P : toml -> Prop)
  (H1 : forall s, P (TomlString s)) (H2 : forall z, P (TomlInt z)) (H3 : forall s, P (TomlFloat s))
  (H4 : forall s, P (TomlDate s)) (H5 : forall x, P (TomlBool x))
  (H6 : forall l, Forall P l -> P (TomlArray l))
  (H7 : forall l, Forall (fun x => P (snd x)) l -> P (TomlTable l)) (v : toml) : P v :=
  let rec := toml_ind' P H1 H2 H3 H4 H5 H6 H7 in
  match v with
  | TomlString s => H1 s | TomlInt z => H2 z | TomlFloat s => H3 s | TomlDate s => H4 s
  | TomlBool x => H5 x
  | TomlArray l => H6 l ((fix go l : Forall P l := match l with
      | [] => Forall_nil _ | x :: l' => @List.Forall_cons _ P x l' (rec x) (go l') end) l)
  | TomlTable l => H7 l ((fix go l : Forall (fun x => P (snd x)) l := match l with
      | [] => Forall_nil _ | x :: l' => @List.Forall_cons _ (fun x => P (snd x)) x l' (rec (snd x)) (go l') end) l)
  end.

Lemma traverse_good N sep st v : oks N st -> forall prefix leading d, good_toml okv v -> good_defs N d ->
  good N (fst (traverse sep st prefix v leading d)) /\ good_defs N (snd (traverse sep st prefix v leading d)).
Proof.
  intros ST. induction v as [s|z|s|s|x|l IH|l IH] using toml_ind'; intros prefix leading d G D; cbn [traverse].
  1-5: split; [|exact D]; (split; [|split; [exact ST|apply toml_ws_ok]]); cbn.
  - exact G. - apply (r_int _ _ _ _ _ R). - exact G. - exact G.
  - destruct x; [apply (r_true _ _ _ _ _ R)|apply (r_false _ _ _ _ _ R)].
  - cbn in G. apply fold_and in G.
    match goal with |- context [let '(_, _) := ?F 0 l true d in _] => set (go := F) end.
    assert (K : forall l i first d, Forall (fun v => forall prefix leading d, good_toml okv v -> good_defs N d ->
      good N (fst (traverse sep st prefix v leading d)) /\ good_defs N (snd (traverse sep st prefix v leading d))) l ->
      Forall (good_toml okv) l -> good_defs N d ->
      goods N (fst (go i l first d)) /\ good_defs N (snd (go i l first d))).
    { clear. intros l. induction l as [|v l IHl]; intros i first d IH G D; cbn; [split; [constructor|exact D]|].
      inversion IH as [|? ? I1 I2]; subst. inversion G as [|? ? G1 G2]; subst.
      destruct (I1 (prefix ++ [show_nat i]) first d G1 D) as [J1 J2].
      destruct (traverse sep st (prefix ++ [show_nat i]) v first d) as [n d1]. cbn in J1, J2.
      assert (J3 : good_defs N (put (qualified sep prefix (show_nat i)) (variable [n]) d1)).
      { apply defs_put; [|exact J2]. apply var_good. constructor; [exact J1|constructor]. }
      destruct (IHl (S i) false _ I2 G2 J3) as [L1 L2].
      destruct (go (S i) l false _) as [ns d2]. cbn in *. split; [constructor; assumption|exact L2]. }
    destruct (K l 0 true d IH G D) as [K1 K2]. destruct (go 0 l true d) as [ns d1]. cbn in *.
    split; [|exact K2]. rewrite fold_and. repeat split; try assumption; [apply (r_w_nil _ _ _ _ _ R)|apply toml_ws_ok].
  - cbn in G. apply fold_and in G.
    match goal with |- context [let '(_, _) := ?F l true d in _] => set (go := F) end.
    assert (K : forall l first d, Forall (fun x => forall prefix leading d, good_toml okv (snd x) -> good_defs N d ->
      good N (fst (traverse sep st prefix (snd x) leading d)) /\ good_defs N (snd (traverse sep st prefix (snd x) leading d))) l ->
      Forall (fun '(k, v) => okv k /\ good_toml okv v) l -> good_defs N d ->
      goods N (fst (go l first d)) /\ good_defs N (snd (go l first d))).
    { clear - R ST. intros l. induction l as [|[k v] l IHl]; intros first d IH G D; cbn; [split; [constructor|exact D]|].
      inversion IH as [|? ? I1 I2]; subst. inversion G as [|? ? GKG G2]; subst. destruct GKG as [GK G1]. cbn [snd] in I1.
      destruct (I1 (prefix ++ [k]) false d G1 D) as [J1 J2].
      destruct (traverse sep st (prefix ++ [k]) v false d) as [n d1]. cbn in J1, J2.
      assert (J3 : good_defs N (put (qualified sep prefix k) (variable [n]) d1)).
      { apply defs_put; [|exact J2]. apply var_good. constructor; [exact J1|constructor]. }
      destruct (IHl false _ I2 G2 J3) as [L1 L2].
      destruct (go l false _) as [ns d2]. cbn in *. split; [|exact L2].
      constructor; [|exact L1]. cbn. repeat split; try assumption. apply toml_ws_ok. }
    destruct (K l true d IH G D) as [K1 K2]. destruct (go l true d) as [ns d1]. cbn in *.
    split; [|exact K2]. rewrite fold_and. repeat split; try assumption; [apply (r_w_nil _ _ _ _ _ R)|apply toml_ws_ok].
Qed.

Lemma expand_toml_good N text sep st d : okm N -> oks N st -> good_defs N d ->
  ensures (fst (expand_toml E text sep st d)) (goods N) /\ good_defs N (snd (expand_toml E text sep st d)).
Proof.
  intros O ST D. unfold expand_toml. destruct (e_toml E text) as [l|] eqn:T; [|split; [bad|exact D]].
  destruct (traverse_good N sep st (TomlTable l) ST [] true d (r_toml _ _ _ _ _ R _ _ T) D) as [A B].
  destruct (traverse _ _ _ _ _ _) as [n d1]. cbn in *. split; [|exact B]. apply ens_ok. constructor; [exact A|constructor].
Qed.

Lemma bt_insert_incl {A} cmp (x : A) l : forall y, In y (bt_insert cmp x l) -> y = x \/ In y l.
Proof.
  induction l as [|z l IH]; cbn; intros y I; [destruct I as [<-|[]]; auto|].
  destruct (cmp x z); cbn in I.
  - destruct I as [<-|I]; auto.
  - destruct I as [<-|[<-|I]]; auto.
  - destruct I as [<-|I]; [auto|]. destruct (IH y I); auto.
Qed.
Lemma arrange_in {A} ks : forall (l : list A) x, In x (arrange ks l) -> In x l.
Proof.
  induction ks as [|k ks IH]; intros l x I; cbn [arrange] in I; [exact I|]. cbv zeta in I.
  destruct (skipn (k mod length l) l) as [|y after] eqn:S; [destruct I|].
  rewrite <- (firstn_skipn (k mod length l) l), S. destruct I as [<-|I]; [apply in_or_app; right; left; reflexivity|].
  apply IH in I. apply in_app_or in I as [I|I]; apply in_or_app; [auto|right; right; exact I].
Qed.
Lemma fold_insert_incl {A} cmp (l : list A) : forall set x,
  In x (fold_left (fun set x => bt_insert cmp x set) l set) -> In x l \/ In x set.
Proof.
  induction l as [|y l IH]; intros set x I; cbn [fold_left] in I; [auto|].
  apply IH in I as [I|I]; [left; right; exact I|]. apply bt_insert_incl in I as [->|I]; [left; left; reflexivity|auto].
Qed.
Lemma bt_collect_incl {A} E' cmp (l : list A) x : In x (bt_collect E' cmp l) -> In x l.
Proof.
  unfold bt_collect. destruct (is_order cmp l || always_less cmp l).
  - intros I. apply fold_insert_incl in I as [I|[]]. exact I.
  - destruct (e_unlisted E' _) as [m ks]. intros I. apply (arrange_in ks).
    rewrite <- (firstn_skipn m (arrange ks l)). apply in_or_app. auto.
Qed.
Lemma glob_entries_good t l : (forall q m, In (Some (q, m)) l -> okv (lossy q)) ->
  ensures (glob_entries t l) (fun o => forall set', o = Some set' -> Forall (fun f => okv (lossy (f_path f))) set').
Proof.
  induction l as [|[[p [m|]]|] l IH]; intros V; cbn [glob_entries].
  - apply ens_ok. intros s' Q. inversion Q; subst. constructor.
  - eapply ens_bind; [apply IH; intros; eapply V; right; eassumption|].
    intros [fs|] F; apply ens_ok; intros s' Q; cbn in Q; [|discriminate]. injection Q as <-. specialize (F fs eq_refl).
    destruct (match t with OnlyFiles => is_file m | OnlyDirs => is_dir m | AnyPath => true end); [|exact F].
    constructor; [|exact F]. apply (V p (Some m)). left. reflexivity.
  - exact I.
  - apply ens_ok. discriminate.
Qed.
Lemma glob_collect_good E' t k l : (forall q m, In (Some (q, m)) l -> okv (lossy q)) ->
  ensures (glob_collect E' t k l) (fun o => forall set', o = Some set' -> Forall (fun f => okv (lossy (f_path f))) set').
Proof.
  intros V. unfold glob_collect. eapply ens_bind; [apply glob_entries_good, V|].
  intros [fs|] F; apply ens_ok; intros s' Q; cbn in Q; [|discriminate]. injection Q as <-. specialize (F fs eq_refl).
  rewrite Forall_forall in *. intros x X. apply F. exact (bt_collect_incl _ _ _ _ X).
Qed.

(** ** Builtin macros *)
Section Builtins.
Variable ex : node -> state -> out.
Variable inv : bytes -> call -> list node -> state -> out.
Hypothesis EX : forall n s, good_state s -> good (srcs s) n -> ensures (ex n s) (post s).
Hypothesis INV : forall k c ps s, good_state s -> good (srcs s) (c_node c) -> goods (srcs s) ps ->
  ensures (inv k c ps s) (post s).

Lemma exs_post ns : forall s, good_state s -> goods (srcs s) ns -> ensures (exs ex ns s) (post s).
Proof.
  induction ns as [|n ns IH]; intros s G GS; cbn [exs].
  - apply post_ok; [apply after_refl, G|constructor].
  - inversion GS; subst. apply post_bind; [apply EX; assumption|]. intros xs s1 A1 G1.
    apply (ens_bind _ _ (post s1)); [apply IH; [apply A1|eapply after_goods; eassumption]|].
    intros [ys s2] [A2 G2]. apply post_ok; [exact A2|]. apply Forall_app.
    split; [eapply after_goods; eassumption|exact G2].
Qed.

Lemma eager_post rs c ps s : good_state s -> good (srcs s) (c_node c) -> goods (srcs s) ps ->
  ensures (eager ex rs c ps s)
    (fun '(x, ps', s') => after s s' /\ good_args (srcs s') x /\ goods (srcs s') ps').
Proof.
  intros G GC GS. unfold eager. apply (ens_bind _ _ (post s)); [apply exs_post; assumption|].
  intros [ps' s1] [A1 G1]. apply (ens_bind _ _ (good_args (srcs s1))).
  { apply arguments_good; [apply A1|eapply after_good; eassumption|exact G1]. }
  intros x X. apply ens_ok.
  assert (T : after s1 (touch c s1)) by (apply after_touch, A1).
  assert (Q : srcs (touch c s1) = srcs s1) by (unfold touch; destruct (_ =? _); reflexivity).
  rewrite Q. split; [eapply after_trans; eauto|]. auto.
Qed.

Lemma frame_post (m : state -> out) s :
  good_state s -> (forall s0, good_state s0 -> srcs s0 = srcs s -> x_defs s0 = x_defs s -> ensures (m s0) (post s0)) ->
  ensures (in_frame m s)
    (fun '(ns, defs, s') => after s s' /\ goods (srcs s') ns /\ good_defs (srcs s') defs).
Proof.
  intros G H. unfold in_frame. set (s0 := State _ _ _).
  apply (ens_bind _ _ (post s0)); [apply H; auto|].
  intros [ns s1] [[L1 G1] GN]. apply ens_ok. split; [|split; [exact GN|apply G1]]. split.
  - apply later_frame, L1.
  - split; [apply G1|]. apply (defs_more (srcs s)); [|apply G]. apply L1.
Qed.

Lemma atoms_good N ns l : goods N ns -> atoms ns = inl l -> Forall (good_atom N) l.
Proof.
  intros G. revert l. induction G as [|n ns G GS IH]; intros l Q; cbn in Q; [inversion Q; constructor|].
  destruct (atomic n) eqn:A; [|bad]. destruct (atoms ns); [|bad].
  inversion Q; subst. constructor; [exact (good_atomic N n a G A)|]. apply IH. reflexivity.
Qed.

Lemma atoms_bad N ns m : goods N ns -> atoms ns = inr m -> good N m.
Proof.
  induction 1 as [|n ns G GS IH]; intros Q; cbn in Q; [discriminate|].
  destruct (atomic n) eqn:A; [|inversion Q; subst; exact G]. destruct (atoms ns); [discriminate|].
  inversion Q; subst. apply IH. reflexivity.
Qed.
Lemma format_bad N ns m : goods N ns -> format_args ns = inr m -> good N m.
Proof.
  induction 1 as [|n ns G GS IH]; intros Q; cbn [format_args] in Q; [discriminate|].
  destruct (match n with Attr k v _ _ => (Some k, v) | _ => (None, n) end) as [name v] eqn:V.
  assert (GV : good N v) by (destruct n; inversion V; subst; try exact G; apply G).
  destruct (atomic v); [|inversion Q; subst; exact GV]. destruct (format_args ns); [discriminate|].
  inversion Q; subst. apply IH. reflexivity.
Qed.

Lemma get_item_good N item n : okm N -> good N n -> ensures (get_item item n) (good N).
Proof.
  intros O G. unfold get_item. destruct (list_of n) as [view|] eqn:L; [|bad].
  pose proof (good_list N n _ G L) as GV.
  cbv zeta.
  set (bi := match parse_usize item with
             | Some i => if (i <? N.of_nat (length view))%N then nth_error view (N.to_nat i) else None
             | None => None
             end).
  assert (B : forall m, bi = Some m -> good N m).
  { intros m Q. unfold bi in Q. destruct (parse_usize item); [|bad].
    destruct (_ <? _)%N; [|bad]. apply nth_error_In in Q. rewrite Forall_forall in GV. apply GV, Q. }
  destruct bi; [apply ens_ok, B; reflexivity|].
  unfold find_attr. destruct (find _ view) as [m|] eqn:F; [|bad].
  apply find_some in F as [I _]. rewrite Forall_forall in GV. pose proof (GV _ I) as GM.
  destruct m; try bad. apply ens_ok. apply GM.
Qed.
Lemma get_path_good N path : okm N -> forall n, good N n -> ensures (get_path path n) (good N).
Proof.
  intros O. induction path as [|i path IH]; intros n G; cbn [get_path]; [apply ens_ok, G|].
  apply (ens_bind _ _ (good N)); [apply get_item_good; assumption|]. exact IH.
Qed.

Lemma create_post k params body s : good_state s -> goods (srcs s) params -> goods (srcs s) body ->
  ensures (create_macro k params body s) (fun s' => after s s' /\ srcs s' = srcs s).
Proof.
  intros G P B. unfold create_macro.
  assert (K : ensures (Ok (set_defs (put k (Macro params body) (x_defs s)) s))
    (fun s' => after s s' /\ srcs s' = srcs s)).
  { apply ens_ok. split; [|reflexivity]. apply after_put; [exact G|]. split; assumption. }
  assert (K2 : ensures (match List.filter ampamp params with
      | _ :: excess :: _ => error EBindMultiRest (node_site excess)
      | _ => Ok (set_defs (put k (Macro params body) (x_defs s)) s)
      end) (fun s' => after s s' /\ srcs s' = srcs s)).
  { destruct (List.filter ampamp params) as [|x [|y l]] eqn:F; try exact K. apply (bad_node (srcs s)); [reflexivity|apply G|].
    rewrite Forall_forall in P. apply P. apply (proj1 (filter_In ampamp y params)). rewrite F. right. left. reflexivity. }
  destruct (List.filter amp params) as [|x [|y l]] eqn:F; try exact K2. apply (bad_node (srcs s)); [reflexivity|apply G|].
  rewrite Forall_forall in P. apply P. apply (proj1 (filter_In amp y params)). rewrite F. right. left. reflexivity.
Qed.

Lemma search_good sex path dirs p t : search_file E sex dirs path = Some (p, t) -> okv t /\ e_read E p = Some t.
Proof.
  induction dirs as [|d dirs IH]; cbn; [bad|].
  destruct (e_read E (path_join d path)) eqn:Q1.
  - intros Q. inversion Q; subst. split; [eapply (r_read _ _ _ _ _ R)|]; eassumption.
  - destruct sex; [|exact IH]. destruct (with_sex _); [|exact IH].
    destruct (e_read E l) eqn:Q2; [|exact IH].
    intros Q. inversion Q; subst. split; [eapply (r_read _ _ _ _ _ R)|]; eassumption.
Qed.

Lemma join_ok sep l : okv sep -> Forall okv l -> okv (join sep l).
Proof.
  intros S. induction 1 as [|x l H HS IH]; cbn; [apply (r_nil _ _ _ _ _ R)|].
  destruct l; [exact H|]. apply (r_app _ _ _ _ _ R); [exact H|]. apply (r_app _ _ _ _ _ R); assumption.
Qed.
Lemma flat_ok {A} (f : A -> bytes) l : Forall (fun x => okv (f x)) l -> okv (flat_map f l).
Proof.
  induction 1; cbn; [apply (r_nil _ _ _ _ _ R)|]. apply (r_app _ _ _ _ _ R); assumption.
Qed.
Lemma fold_ok l : forall acc, okv acc -> Forall (fun a => okv (a_val a)) l ->
  okv (fold_left (fun acc a => acc ++ a_val a) l acc).
Proof.
  induction l as [|a l IH]; intros acc A F; cbn; [exact A|]. inversion F; subst.
  apply IH; [apply (r_app _ _ _ _ _ R); assumption|assumption].
Qed.
Lemma vals_ok N l : Forall (good_atom N) l -> Forall okv (map a_val l).
Proof. induction 1 as [|a l H _ IH]; cbn; constructor; [apply H|exact IH]. Qed.

Lemma with_ws_good N ns ws : goods N ns -> goods N ws -> goods N (with_ws_of ns ws).
Proof.
  intros G W. unfold with_ws_of. apply Forall_forall. intros x I. apply in_map_iff in I as [[n w] [<- I]].
  rewrite Forall_forall in G, W. apply good_set_ws.
  - apply (good_ws N). apply W. exact (in_combine_r _ _ _ _ I).
  - apply G. exact (in_combine_l _ _ _ _ I).
Qed.

Lemma srcs_touch c s : srcs (touch c s) = srcs s.
Proof. unfold touch. destruct (_ =? _); reflexivity. Qed.

Lemma done_touch c s ns : good_state s -> goods (srcs s) ns -> ensures (Ok (ns, touch c s)) (post s).
Proof.
  intros G H. apply post_ok; [apply after_touch, G|]. rewrite srcs_touch. exact H.
Qed.
Lemma done s ns : good_state s -> goods (srcs s) ns -> ensures (Ok (ns, s)) (post s).
Proof. intros G H. apply post_ok; [apply after_refl, G|exact H]. Qed.
Lemma one_here (make : atom -> node) c v N :
  (forall a, good_atom N a -> good N (make a)) -> good N (c_node c) -> okv v -> goods N [make (here c v)].
Proof. intros M G V. constructor; [apply M, good_here; assumption|constructor]. Qed.

Lemma match_clauses_post v cl : forall s, good_state s -> good (srcs s) v -> goods (srcs s) cl ->
  ensures (match_clauses E ex v cl s) (post s).
Proof.
  induction cl as [|c cl IH]; intros s G GV GC; cbn [match_clauses].
  - apply done; [exact G|constructor].
  - inversion GC as [|? ? GC1 GC2]; subst. destruct (list_of c) as [[|pat body]|] eqn:L; try bad.
    pose proof (good_list _ _ _ GC1 L) as GL. inversion GL as [|? ? GP GB]; subst.
    apply post_bind; [apply EX; assumption|]. intros ps s1 A1 G1.
    destruct ps as [|p [|? ?]]; try bad. inversion G1 as [|? ? GP1 _]; subst.
    assert (GV1 : good (srcs s1) v) by (eapply after_good; eassumption).
    assert (GB1 : goods (srcs s1) body) by (eapply after_goods; eassumption).
    assert (K : ensures (let* '(ns, _, s) := in_frame (fun s => let* s := bind_node E p v s in exs ex body s) s1 in
                  Ok (ns, s)) (post s1)).
    { eapply ens_bind.
      - apply frame_post; [apply A1|]. intros s0 G0 S0 D0.
        apply (ens_bind _ _ (fun s' => after s0 s' /\ srcs s' = srcs s0)).
        + apply bind_node_after; [exact G0| |]; rewrite S0; assumption.
        + intros s2 [A2 S2]. apply (post_after s0 s2); [exact A2|]. apply exs_post; [apply A2|].
          rewrite S2, S0. exact GB1.
      - intros [[ns d] s2] [A2 [G2 _]]. apply post_ok; assumption. }
    destruct (bind_node E p v _) as [| | | |]; try exact K.
    apply IH; [apply A1|exact GV1|eapply after_goods; eassumption].
Qed.

Lemma for_each_post pat items body : forall s, good_state s -> good (srcs s) pat ->
  goods (srcs s) items -> goods (srcs s) body -> ensures (for_each E ex pat items body s) (post s).
Proof.
  induction items as [|i items IH]; intros s G GP GI GB; cbn [for_each].
  - apply done; [exact G|constructor].
  - inversion GI; subst. apply (ens_bind _ _ (fun s' => after s s' /\ srcs s' = srcs s)).
    + apply bind_node_after; assumption.
    + intros s1 [A1 S1]. apply (post_after s s1); [exact A1|].
      apply post_bind; [apply exs_post; [apply A1|rewrite S1; exact GB]|]. intros xs s2 A2 G2.
      apply (ens_bind _ _ (post s2)).
      * assert (L : extends (srcs s) (srcs s2)) by (rewrite <- S1; apply after_srcs, A2).
        apply IH; [apply A2|eapply good_more; eassumption|eapply goods_more; eassumption|eapply goods_more; eassumption].
      * intros [ys s3] [A3 G3]. apply post_ok; [exact A3|]. apply Forall_app.
        split; [eapply after_goods; eassumption|exact G3].
Qed.

Lemma map_each_post d k c ns : forall s, good_state s -> good (srcs s) (c_node c) -> goods (srcs s) ns ->
  ensures (map_each inv d k c ns s) (post s).
Proof.
  induction ns as [|n ns IH]; intros s G GC GN; cbn [map_each].
  - apply done; [exact G|constructor].
  - inversion GN; subst. apply post_bind; [apply INV; try assumption; constructor; [assumption|constructor]|].
    intros xs s1 A1 G1. apply (ens_bind _ _ (post s1)).
    + apply IH; [apply A1|eapply after_good; eassumption|eapply after_goods; eassumption].
    + intros [ys s2] [A2 G2]. apply post_ok; [exact A2|]. apply Forall_app. split; [|exact G2].
      eapply after_goods; [exact A2|]. destruct xs as [|x [|? ?]]; auto. destruct (_ && _); [constructor|exact G1].
Qed.

Lemma sort_keys_post k c st ns : forall s, good_state s -> oks (srcs s) st -> good (srcs s) (c_node c) -> goods (srcs s) ns ->
  ensures (sort_keys inv k c st ns s) (fun '(items, s') => after s s' /\ goods (srcs s') (map snd items)).
Proof.
  induction ns as [|n ns IH]; intros s G ST GC GN; cbn [sort_keys].
  - apply ens_ok. split; [apply after_refl, G|constructor].
  - inversion GN as [|? ? GN1 GN2]; subst. apply (ens_bind _ _ (post s)).
    + assert (I : ensures (inv k c [n] s) (post s)) by (apply INV; try assumption; constructor; [assumption|constructor]).
      destruct (inv k c [n] s) as [p| | | |]; [exact I|bad|exact Logic.I..].
    + intros [key s1] [A1 G1]. destruct key as [|x [|? ?]]; try bad. inversion G1; subst.
      destruct (atomic x) as [a|]; [|bad].
      apply (ens_bind _ _ (fun '(items, s') => after s1 s' /\ goods (srcs s') (map snd items))).
      * apply IH; [apply A1|exact (r_more _ _ _ _ _ R _ _ _ (after_srcs _ _ A1) ST)|eapply after_good; eassumption|eapply after_goods; eassumption].
      * intros [items s2] [A2 G2]. apply ens_ok. split; [eapply after_trans; eauto|]. cbn.
        constructor; [|exact G2]. apply (after_good s1 s2); [exact A2|]. apply (after_good s s1); assumption.
Qed.

Lemma insertion_incl {A} cmp (l : list A) : forall x, In x (insertion_sort cmp l) -> In x l.
Proof.
  induction l as [|y l IH]; cbn; [auto|]. intros x I.
  assert (K : forall l, In x (sort_insert cmp y l) -> x = y \/ In x l).
  { clear. induction l as [|z l IH]; cbn; intros I; [destruct I as [<-|[]]; auto|].
    destruct (cmp y z); cbn in I; destruct I as [<-|I]; auto. destruct (IH I); auto. }
  destruct (K _ I) as [->|J]; auto.
Qed.

Lemma copy_good N prefix keys from : forall to, good_defs N from -> good_defs N to ->
  good_defs N (copy_prefixed prefix keys from to).
Proof.
  unfold copy_prefixed. induction keys as [|k keys IH]; intros to F T; cbn; [exact T|].
  apply IH; [exact F|]. destruct (get k from) eqn:Q; [|exact T]. apply defs_put; [exact (F k m Q)|exact T].
Qed.
Lemma options_good N sep ns : okm N -> goods N ns -> ensures (namespace_options sep ns) (fun '(_, body) => goods N body).
Proof.
  intros O G. revert sep. induction G as [|n ns G GS IH]; intros sep; cbn [namespace_options].
  - apply ens_ok. constructor.
  - destruct n; try (apply ens_ok; constructor; assumption).
    cbn in G. destruct G as [_ [GV [GST _]]].
    destruct (beq _ _); [|bad]. destruct (atomic n); [|bad]. apply IH.
Qed.
Lemma splat_good N n : good N n -> goods N (splat_node n).
Proof.
  intros G. destruct n; try (constructor; [exact G|constructor]).
  apply good_lst in G. cbn. apply goods_first; tauto.
Qed.
Lemma trim_good N ps : goods N ps -> goods N (trim_first ps).
Proof.
  intros G. destruct G as [|p ps G GS]; cbn; [constructor|]. constructor; [|exact GS].
  destruct (has LF _); [exact G|]. apply good_set_ws; [apply (r_w_nil _ _ _ _ _ R)|exact G].
Qed.

(** After evaluating the arguments. *)
Lemma exs_then ps s (k : list node * state -> out) : good_state s -> goods (srcs s) ps ->
  (forall ns s1, after s s1 -> good_state s1 -> goods (srcs s1) ns -> ensures (k (ns, s1)) (post s1)) ->
  ensures (bind (exs ex ps s) k) (post s).
Proof. intros G P K. apply post_bind; [apply exs_post; assumption|]. intros ns s1 A. apply K; [exact A|apply A]. Qed.
Lemma eager_then rs c ps s (k : args * list node * state -> out) : good_state s -> good (srcs s) (c_node c) -> goods (srcs s) ps ->
  (forall x ps1 s1, after s s1 -> good_state s1 -> good_args (srcs s1) x -> goods (srcs s1) ps1 -> ensures (k (x, ps1, s1)) (post s1)) ->
  ensures (bind (eager ex rs c ps s) k) (post s).
Proof.
  intros G GC P K. eapply ens_bind; [apply eager_post; assumption|]. intros [[x ps1] s1] [A [X P1]].
  apply (post_after s s1); [exact A|]. apply K; [exact A|apply A|exact X|exact P1].
Qed.

Ltac need_atom N x := eapply (ens_bind _ _ (good_atom N)); [apply need_atom_good; exact x|].
Ltac want_atom N x := eapply (ens_bind _ _ (good_opt N)); [apply want_atom_good; exact x|].
Ltac rest_atoms N x := eapply (ens_bind _ _ (Forall (good_atom N))); [apply rest_atoms_good; exact x|].
Ltac rest_nodes N x := eapply (ens_bind _ _ (Forall (good N))); [apply rest_nodes_good; exact x|].

Lemma timezone_ens N tz : okm N -> good_opt N tz -> ensures (timezone E tz) (fun _ => True).
Proof.
  intros O G. unfold timezone, checked. destruct tz as [a|]; [|exact I].
  destruct (e_fixed E (a_val a)); [|bad].
  repeat (destruct (fits_i64 _); [|exact I]; cbn [bind]). exact I.
Qed.

Lemma frontmatter_post c contents sep s : good_state s -> good_atom (srcs s) contents -> good (srcs s) (c_node c) ->
  ensures (frontmatter E c contents sep s) (fun '(r, s') => after s s' /\ ensures r (fun _ => True)).
Proof.
  intros G GT GC. unfold frontmatter.
  assert (U : forall r : res (list node), ensures r (goods (srcs s)) -> ensures (rmap (fun _ => tt) r) (fun _ => True)).
  { intros r H. eapply ens_bind; [exact H|]. intros; exact I. }
  destruct (e_front E (a_val contents)) as [[t|t|]|];
    try (apply ens_ok; split; [apply after_refl, G|bad]).
  - eapply ens_bind; [apply expand_yaml_good; [apply G|apply good_site, GC|apply G]|].
    intros [r d] [GR D]. apply ens_ok. split; [apply after_defs; [apply G|exact D]|apply U, GR].
  - pose proof (expand_toml_good (srcs s) t sep (call_site c) (x_defs s) (proj1 (proj1 G)) (good_site _ _ GC) (proj2 G)) as [GR D].
    destruct (expand_toml _ _ _ _ _) as [r d]. apply ens_ok. split; [apply after_defs; [apply G|exact D]|apply U, GR].
Qed.

Ltac here_one G1 GC := apply one_here; [intros ?a ?Ha; exact Ha|exact GC|].

Lemma builtin_post m c ps s : good_state s -> good (srcs s) (c_node c) -> goods (srcs s) ps ->
  ensures (run_builtin E ex inv m c ps s) (post s).
Proof.
  intros G GC GP.
  assert (CM : forall s1, after s s1 -> good (srcs s1) (c_node c)) by (intros s1 A; eapply after_good; eassumption).
  destruct m; cbn [run_builtin].
  - (* define *) unfold do_define. destruct GP as [|head nodes GH GN]; [bad|].
    destruct (symbol head) as [v|].
    + apply exs_then; [exact G|exact GN|]. intros body s1 A1 G1 GB.
      eapply ens_bind; [apply create_post; [exact G1|constructor|exact GB]|].
      intros s2 [A2 S2]. apply post_ok; [exact A2|constructor].
    + destruct (list_of head) as [[|name params]|] eqn:L; try bad.
      pose proof (good_list _ _ _ GH L) as GL. inversion GL; subst.
      destruct (symbol name); [|bad].
      eapply ens_bind; [apply create_post; [exact G|assumption|exact GN]|].
      intros s2 [A2 S2]. apply post_ok; [exact A2|constructor].
  - (* match *) unfold do_match. destruct GP as [|expr cl GH GN]; [bad|].
    apply post_bind; [apply EX; assumption|]. intros vs s1 A1 G1. destruct vs as [|v [|? ?]]; try bad.
    inversion G1; subst. apply match_clauses_post; [apply A1|assumption|eapply after_goods; eassumption].
  - (* ifdef *) unfold do_ifdef.
    assert (K : forall cond yes no, good (srcs s) cond -> good (srcs s) yes -> (forall n, no = Some n -> good (srcs s) n) ->
      ensures (match atomic cond with
    | None => error EIfdef (node_site cond)
    | Some a =>
        let* '(ns, s) :=
          if defined (a_val a) (x_defs s) then ex yes s
          else match no with
               | Some alt => ex alt s
               | None => Ok ([], s)
               end in
        match ns with
        | [] => Ok ([], s)
        | _ => Ok (set_first_ws (call_ws c) ns, touch c s)
        end
    end) (post s)).
    { intros cond yes no GCO GY GO. destruct (atomic cond); [|bad]. apply post_bind.
      - destruct (defined _ _); [apply EX; assumption|].
        destruct no; [apply EX; [exact G|apply GO; reflexivity]|]. apply done; [exact G|constructor].
      - intros ns s1 A1 G1. destruct ns; [apply done; [apply A1|constructor]|].
        apply done_touch; [apply A1|]. apply goods_first; [exact (good_ws _ _ (CM s1 A1))|exact G1]. }
    destruct ps as [|cond [|yes [|no [|? ?]]]]; try bad;
      inversion GP as [|? ? GCO GP1]; subst; inversion GP1 as [|? ? GY GP2]; subst.
    + apply (K cond yes None GCO GY). discriminate.
    + apply (K cond yes (Some no) GCO GY). inversion GP2; subst. intros n Q. inversion Q; subst. assumption.
  - (* do *) apply exs_post; assumption.
  - (* get *) unfold do_get. apply eager_then; try assumption. intros x ps1 s1 A1 G1 X P1.
    need_atom (srcs s1) X. intros path _. eapply ens_bind; [apply need_node_good; exact X|]. intros n GN.
    want_atom (srcs s1) X. intros sep _. eapply ens_bind; [apply get_path_good; [apply G1|exact GN]|].
    intros m GM. apply done; [exact G1|constructor; [exact GM|constructor]].
  - (* raw *) unfold do_text. apply exs_then; try assumption. intros ns s1 A1 G1 GN.
    destruct (atoms ns) as [l|bn] eqn:Q; [|pose proof (atoms_bad _ _ _ GN Q); bad]. apply done_touch; [exact G1|].
    apply one_here; [auto|apply CM, A1|]. apply flat_ok.
    eapply Forall_impl; [|exact (atoms_good _ _ _ GN Q)]. intros a [V [_ W]].
    apply (r_app _ _ _ _ _ R); [apply (r_ws _ _ _ _ _ R), W|exact V].
  - (* string *) unfold do_text. apply exs_then; try assumption. intros ns s1 A1 G1 GN.
    destruct (atoms ns) as [l|bn] eqn:Q; [|pose proof (atoms_bad _ _ _ GN Q); bad]. apply done_touch; [exact G1|].
    apply one_here; [auto|apply CM, A1|]. apply flat_ok.
    eapply Forall_impl; [|exact (atoms_good _ _ _ GN Q)]. intros a [V [_ W]].
    apply (r_app _ _ _ _ _ R); [apply (r_ws _ _ _ _ _ R), W|exact V].
  - (* number *) unfold do_convert. apply eager_then; try assumption. intros x ps1 s1 A1 G1 X P1.
    rest_atoms (srcs s1) X. intros l GL. apply done; [exact G1|]. apply Forall_map. exact GL.
  - (* symbol *) unfold do_convert. apply eager_then; try assumption. intros x ps1 s1 A1 G1 X P1.
    rest_atoms (srcs s1) X. intros l GL. apply done; [exact G1|]. apply Forall_map. exact GL.
  - (* include *) unfold do_include. apply exs_then; try assumption. intros ns s1 A1 G1 GN.
    destruct ns as [|n [|? ?]]; try bad. inversion GN as [|? ? GN1 _]; subst. destruct (atomic n) as [a|] eqn:AT; [|bad].
    pose proof (good_atomic _ _ _ GN1 AT) as GA.
    destruct (search_file E true (e_includes E) (a_val a)) as [[path text]|] eqn:F; [|bad].
    destruct (add_source path text s1) as [id s2] eqn:Q.
    destruct (parse (e_unescape E) id text) as [tree| | | |] eqn:PT; try bad.
    assert (S2 : srcs s2 = srcs s1 ++ [(path, text)] /\ id = length (srcs s1)).
    { unfold add_source in Q. inversion Q; subst. auto. }
    destruct S2 as [S2 ->]. destruct (search_good _ _ _ _ _ F) as [OT RD].
    assert (A2 : after s1 s2).
    { pose proof (later_add path text s1) as L. rewrite Q in L. cbn in L. split; [exact L|].
      split; [split; [rewrite S2; apply (r_source _ _ _ _ _ R); [apply G1|exact RD]|]|].
      { apply (log_more (srcs s1)); [apply L|]. unfold add_source in Q. inversion Q; subst. apply G1. }
      apply (defs_more (srcs s1)); [apply L|]. unfold add_source in Q. inversion Q; subst. apply G1. }
    apply (post_after s1 s2); [exact A2|]. apply exs_then; [apply A2| |].
    + rewrite S2. eapply (r_parse _ _ _ _ _ R); [exact PT|exact OT|]. rewrite <- S2. apply A2.
    + intros ns s3 A3 G3 GN3. destruct ns; [apply done; [exact G3|constructor]|].
      apply done_touch; [exact G3|]. apply goods_first; [|exact GN3].
      apply (good_ws (srcs s3)), CM. eapply after_trans; [exact A1|]. eapply after_trans; eassumption.
  - (* embed *) unfold do_embed. apply exs_then; try assumption. intros ns s1 A1 G1 GN.
    destruct ns as [|n [|? ?]]; try bad. inversion GN as [|? ? GN1 _]; subst. destruct (atomic n) as [a|] eqn:AT; [|bad].
    pose proof (good_atomic _ _ _ GN1 AT) as GA.
    destruct (search_file E false (e_includes E) (a_val a)) as [[path text]|] eqn:F; [|bad].
    apply done_touch; [exact G1|]. apply one_here; [auto|apply CM, A1|]. apply (search_good _ _ _ _ _ F).
  - (* namespace *) unfold do_namespace. eapply ens_bind.
    + apply frame_post; [exact G|]. intros s0 G0 S0 _. apply exs_post; [exact G0|rewrite S0; exact GP].
    + intros [[ns d] s1] [A1 [GN GD]]. destruct GN as [|name ns GM GN]; [bad|].
      destruct (atomic name) as [a|]; [|bad].
      eapply ens_bind; [apply options_good; [apply A1|exact GN]|]. intros [sep body] GB.
      apply (post_after s s1); [exact A1|]. apply post_ok; [|exact GB].
      eapply after_trans; [|apply after_maps].
      * apply after_defs; [apply A1|]. apply copy_good; [exact GD|apply A1].
      * split; [apply A1|]. apply copy_good; [exact GD|apply A1].
  - (* markdown *) unfold do_markdown. apply eager_then; try assumption. intros x ps1 s1 A1 G1 X P1.
    need_atom (srcs s1) X. intros contents CO. want_atom (srcs s1) X. intros only _.
    want_atom (srcs s1) X. intros sep _. cbv zeta.
    assert (H : forall s2, after s1 s2 -> ensures
      (let* ns := match e_html E (a_val contents) with
        | Some html => Ok [Raw (here c html)]
        | None => error EMarkdown (a_site contents)
        end in Ok (ns, touch c s2)) (post s2)).
    { intros s2 A2. destruct (e_html E (a_val contents)) as [html|] eqn:Q; [|bad].
      apply done_touch; [apply A2|]. apply one_here; [auto|apply CM; eapply after_trans; eassumption|].
      eapply (r_html _ _ _ _ _ R); exact Q. }
    destruct (option_map a_val only) as [o|].
    + destruct (beq o (b "frontmatter")).
      * eapply ens_bind; [apply frontmatter_post; [exact G1|exact CO|apply CM, A1]|].
        intros [r s2] [A2 GR]. apply (post_after s1 s2); [exact A2|]. eapply ens_bind; [exact GR|]. intros _ _.
        apply done_touch; [apply A2|constructor].
      * destruct (beq o (b "content")); [|bad]. apply H. apply after_refl, G1.
    + eapply ens_bind; [apply frontmatter_post; [exact G1|exact CO|apply CM, A1]|].
      intros [r s2] [A2 GR]. apply (post_after s1 s2); [exact A2|]. apply H, A2.
  - (* yaml *) unfold do_yaml. apply eager_then; try assumption. intros x ps1 s1 A1 G1 X P1.
    need_atom (srcs s1) X. intros text _. want_atom (srcs s1) X. intros sep _.
    eapply ens_bind; [apply expand_yaml_good; [apply G1|apply good_site, CM, A1|apply G1]|].
    intros [r d] [GR D]. eapply ens_bind; [exact GR|]. intros ns GN.
    apply (post_after s1 (set_defs d s1)); [apply after_defs; [apply G1|exact D]|]. apply done_touch; [split; [apply G1|exact D]|exact GN].
  - (* toml *) unfold do_toml. apply eager_then; try assumption. intros x ps1 s1 A1 G1 X P1.
    need_atom (srcs s1) X. intros text _. want_atom (srcs s1) X. intros sep _.
    pose proof (expand_toml_good (srcs s1) (a_val text) (val_or (b "/") sep) (call_site c) (x_defs s1)
      (proj1 (proj1 G1)) (good_site _ _ (CM s1 A1)) (proj2 G1)) as [GR D].
    destruct (expand_toml _ _ _ _ _) as [r d]. eapply ens_bind; [exact GR|]. intros ns GN.
    apply (post_after s1 (set_defs d s1)); [apply after_defs; [apply G1|exact D]|]. apply done_touch; [split; [apply G1|exact D]|exact GN].
  - (* glob *) unfold do_glob. apply eager_then; try assumption. intros x ps1 s1 A1 G1 X P1.
    need_atom (srcs s1) X. intros pattern GPAT. pose proof GPAT as [_ [GS _]]. want_atom (srcs s1) X. intros type _.
    want_atom (srcs s1) X. intros sort _. want_atom (srcs s1) X. intros order _.
    apply (ens_bind _ _ (fun _ => True)).
    { destruct (option_map a_val type); [|exact I]. repeat (destruct (beq _ _); [exact I|]). exact I. }
    intros ty _. apply (ens_bind _ _ (fun _ => True)).
    { destruct (option_map a_val sort); [|exact I]. repeat (destruct (beq _ _); [exact I|]). exact I. }
    intros so _. cbv zeta.
    destruct (e_glob E (a_val pattern)) as [entries|] eqn:Q; [|bad].
    eapply ens_bind; [apply glob_collect_good; intros q m0 I; eapply (r_glob _ _ _ _ _ R); eassumption|].
    intros [set|] GSET; [|bad]. specialize (GSET set eq_refl).
    apply done; [exact G1|]. apply goods_first; [apply (r_w_nil _ _ _ _ _ R)|]. apply Forall_map.
    assert (GS2 : Forall (fun f => okv (lossy (f_path f))) (if beq (val_or (b "ascending") order) (b "ascending") then set else rev set)).
    { destruct (beq _ _); [exact GSET|apply Forall_rev, GSET]. }
    eapply Forall_impl; [|exact GS2]. intros f V. split; [exact V|]. split; [exact GS|apply (r_w_blank _ _ _ _ _ R)].
  - (* for *) unfold do_for. eapply ens_bind; [apply arguments_good; [apply G|exact GC|exact GP]|]. intros x X. cbv zeta.
    eapply ens_bind; [apply need_node_good; exact X|]. intros pat GPAT.
    eapply ens_bind; [apply need_list_good; exact X|]. intros items GI.
    rest_nodes (srcs s) X. intros body GB.
    apply (post_after s (touch c s)); [apply after_touch, G|].
    apply exs_then; [exact (proj2 (after_touch c s G))|rewrite srcs_touch; exact GI|].
    intros items1 s1 A1 G1 GI1. eapply ens_bind.
    + apply frame_post; [exact G1|]. intros s0 G0 S0 _.
      assert (L : extends (srcs s) (srcs s0)) by (rewrite S0, <- (srcs_touch c s); apply after_srcs, A1).
      apply for_each_post; [exact G0|eapply good_more; eassumption|rewrite S0; exact GI1|eapply goods_more; eassumption].
    + intros [[ns d] s2] [A2 [G2 _]]. apply post_ok; assumption.
  - (* sort *) unfold do_sort. apply eager_then; try assumption. intros x ps1 s1 A1 G1 X P1.
    eapply ens_bind; [apply need_node_good; exact X|]. intros n GN.
    want_atom (srcs s1) X. intros order _. want_atom (srcs s1) X. intros key GK. cbv zeta.
    destruct n as [| | | |nodes st ew es w|]; try bad. apply good_lst in GN as [GN [O1 [O2 [O3 O4]]]].
    eapply ens_bind; [apply sort_keys_post; [exact G1| |apply CM, A1|exact GN]|].
    { destruct key; [apply GK|apply good_site, CM, A1]. }
    intros [items s2] [A2 GI].
    apply (post_after s1 s2); [exact A2|]. apply (ens_bind _ _ (fun sorted => Permutation sorted items)).
    { match goal with |- context [sort_by ?e ?c items] => destruct (sort_by e c items) eqn:SB; try exact I end;
        [exact (sort_by_perm _ _ _ _ SB)|apply sort_by_iff in SB; inversion SB]. }
    intros sorted SO.
    apply done_touch; [apply A2|]. constructor; [|constructor]. apply good_lst.
    assert (GS : goods (srcs s2) (map snd sorted)).
    { apply Forall_forall. intros y I. apply in_map_iff in I as [z [<- I]]. apply (Permutation_in _ SO) in I.
      rewrite Forall_forall in GI. apply GI. apply in_map. exact I. }
    pose proof (after_srcs _ _ A2) as L.
    split; [apply with_ws_good; [exact GS|eapply goods_more; eassumption]|].
    split; [exact (r_more _ _ _ _ _ R _ _ _ L O1)|]. split; [exact O2|].
    split; [exact (r_more _ _ _ _ _ R _ _ _ L O3)|]. apply (good_ws (srcs s1)), CM, A1.
  - (* reverse *) unfold do_reverse. apply eager_then; try assumption. intros x ps1 s1 A1 G1 X P1.
    eapply ens_bind; [apply need_list_good; exact X|]. intros l GL.
    destruct P1 as [|n ps1 GN _]; [bad|]. destruct n as [| | | |nodes st ew es w|]; try bad.
    apply good_lst in GN as [_ O]. apply done; [exact G1|]. constructor; [|constructor]. apply good_lst.
    split; [apply with_ws_good; [apply Forall_rev|]; exact GL|exact O].
  - (* date *) unfold do_date. apply eager_then; try assumption. intros x ps1 s1 A1 G1 X P1.
    need_atom (srcs s1) X. intros fmt _. want_atom (srcs s1) X. intros time GT. want_atom (srcs s1) X. intros tz GTZ.
    apply (ens_bind _ _ (fun _ => True)); [apply (timezone_ens (srcs s1)); [apply G1|exact GTZ]|]. intros off _.
    apply (ens_bind _ _ (fun _ => True)).
    { destruct time as [ti|]; [|exact I]. destruct (parse_i64 _); [|bad]. destruct (e_time_ok _ _); [exact I|bad]. }
    intros t _. destruct (east_ok off); [|destruct tz; bad].
    destruct (e_date E t off (a_val fmt)) as [text|] eqn:Q; [|bad].
    apply done_touch; [exact G1|]. apply one_here; [auto|apply CM, A1|]. eapply (r_date _ _ _ _ _ R); exact Q.
  - (* timestamp *) unfold do_timestamp. apply eager_then; try assumption. intros x ps1 s1 A1 G1 X P1.
    need_atom (srcs s1) X. intros fmt _. need_atom (srcs s1) X. intros date _. want_atom (srcs s1) X. intros tz GTZ.
    pose proof (CM s1 A1) as GC1.
    apply (ens_bind _ _ (fun _ => True)); [apply (timezone_ens (srcs s1)); [apply G1|exact GTZ]|]. intros off _.
    destruct (east_ok off); [|destruct tz; bad]. apply (ens_bind _ _ (fun _ => True)).
    { destruct (e_parse_date _ _ _); [exact I|]. destruct (e_parse_naive _ _ _); [|bad].
      destruct (e_time_ok _ _); [exact I|bad]. }
    intros t _.
    apply done_touch; [exact G1|]. apply one_here; [auto|apply CM, A1|]. apply (r_int _ _ _ _ _ R).
  - (* join *) unfold do_join. apply eager_then; try assumption. intros x ps1 s1 A1 G1 X P1.
    need_atom (srcs s1) X. intros sep [VS _]. want_atom (srcs s1) X. intros tr _.
    rest_atoms (srcs s1) X. intros l GL. apply done; [exact G1|]. apply one_here; [auto|apply CM, A1|].
    apply (r_app _ _ _ _ _ R); [apply join_ok; [exact VS|eapply vals_ok; exact GL]|].
    destruct (beq _ _); [exact VS|apply (r_nil _ _ _ _ _ R)].
  - (* concat *) unfold do_concat. apply eager_then; try assumption. intros x ps1 s1 A1 G1 X P1.
    rest_atoms (srcs s1) X. intros l GL. apply done; [exact G1|]. apply one_here; [auto|apply CM, A1|].
    apply fold_ok; [apply (r_nil _ _ _ _ _ R)|]. eapply Forall_impl; [|exact GL]. intros a H. apply H.
  - (* map *) unfold do_map. apply eager_then; try assumption. intros x ps1 s1 A1 G1 X P1.
    need_atom (srcs s1) X. intros f _. rest_nodes (srcs s1) X. intros l GL.
    apply map_each_post; [exact G1|apply CM, A1|exact GL].
  - (* filter *) unfold do_map. apply eager_then; try assumption. intros x ps1 s1 A1 G1 X P1.
    need_atom (srcs s1) X. intros f _. rest_nodes (srcs s1) X. intros l GL.
    apply map_each_post; [exact G1|apply CM, A1|exact GL].
  - (* splat *) unfold do_splat. apply exs_then; try assumption. intros ns s1 A1 G1 GN.
    apply done; [exact G1|]. apply Forall_forall. intros y I. apply in_flat_map in I as [n [I J]].
    rewrite Forall_forall in GN. pose proof (splat_good _ _ (GN n I)) as H. rewrite Forall_forall in H. apply H, J.
  - (* list *) unfold do_list. apply exs_then; try assumption. intros ns s1 A1 G1 GN.
    pose proof (CM s1 A1) as GC1. destruct (c_node c) as [| | | |nodes st ew es w|]; try bad.
    apply done_touch; [exact G1|]. constructor; [|constructor]. apply good_lst in GC1. apply good_lst. tauto.
  - (* strip *) unfold do_strip. apply exs_then; try assumption. intros ns s1 A1 G1 GN.
    apply done; [exact G1|]. apply goods_first; [apply (r_w_nil _ _ _ _ _ R)|exact GN].
  - (* apply *) unfold do_apply. apply eager_then; try assumption. intros x ps1 s1 A1 G1 X P1.
    need_atom (srcs s1) X. intros f _. rest_nodes (srcs s1) X. intros l GL.
    apply INV; [exact G1|apply CM, A1|exact GL].
  - (* lambda *) unfold do_lambda. eapply ens_bind; [apply arguments_good; [apply G|exact GC|exact GP]|]. intros x X.
    eapply ens_bind; [apply need_node_good; exact X|]. intros head GH.
    rest_nodes (srcs s) X. intros body GB.
    apply (ens_bind _ _ (goods (srcs s))).
    { destruct (list_of head) eqn:L; [apply ens_ok; exact (good_list _ _ _ GH L)|].
      destruct (symbol head); [|bad]. apply ens_ok. constructor; [exact GH|constructor]. }
    intros params GPA. cbv zeta. apply (post_after s (touch c s)); [apply after_touch, G|].
    eapply ens_bind.
    + apply create_post; [exact (proj2 (after_touch c s G))|rewrite srcs_touch; exact GPA|rewrite srcs_touch; exact GB].
    + intros s2 [A2 S2]. apply post_ok; [exact A2|]. rewrite S2, srcs_touch. apply one_here; [auto|exact GC|].
      apply (r_app _ _ _ _ _ R); [apply (r_lambda _ _ _ _ _ R)|]. unfold uuid.
      apply (r_app _ _ _ _ _ R); [apply (r_int _ _ _ _ _ R)|]. apply (r_app _ _ _ _ _ R); [apply (r_dash _ _ _ _ _ R)|apply (r_nat _ _ _ _ _ R)].
  - (* log *) unfold do_log. apply exs_then; try assumption. intros ns s1 A1 G1 GN.
    destruct (atoms ns) eqn:Q; [|bad]. apply post_ok; [|constructor].
    eapply after_trans; [apply after_touch, G1|]. split; [apply later_log_line|].
    destruct (proj2 (after_touch c s1 G1)) as [[O1 L1] D1]. split; [split; [exact O1|]|exact D1].
    apply Forall_app. split; [exact L1|]. constructor; [|constructor]. split; cbn [fst snd].
    + change (oks (srcs (touch c s1)) (call_site c)). rewrite srcs_touch. apply good_site, CM, A1.
    + apply join_ok; [apply (r_ws _ _ _ _ _ R), (r_w_blank _ _ _ _ _ R)|].
      eapply vals_ok. exact (atoms_good _ _ _ GN Q).
  - (* format *) unfold do_format. apply exs_then; try assumption. intros ns s1 A1 G1 GN.
    destruct ns as [|n rest]; [bad|]. inversion GN as [|? ? GF GR]; subst.
    destruct n as [| |fmt| | |]; try bad. destruct (e_template E (a_val fmt)); [|bad].
    destruct (format_args rest) as [l|v] eqn:QF; [|pose proof (format_bad _ _ _ GR QF); bad].
    destruct (e_format E (a_val fmt) l) as [text|] eqn:Q; [|bad].
    apply done_touch; [exact G1|]. apply one_here; [auto|apply CM, A1|]. eapply (r_format _ _ _ _ _ R); exact Q.
  - (* env *) unfold do_env. apply exs_then; try assumption. intros ns s1 A1 G1 GN.
    destruct ns as [|n [|? ?]]; try bad. inversion GN as [|? ? GN1 _]; subst. destruct (atomic n) as [a|] eqn:AT; [|bad].
    pose proof (good_atomic _ _ _ GN1 AT) as GA. destruct (good_atomic _ _ _ GN1 AT) as [V [ST W]].
    destruct (e_getenv E (a_val a)) as [v|] eqn:Q; [|bad]. apply done; [exact G1|].
    constructor; [|constructor]. split; [eapply (r_env _ _ _ _ _ R); exact Q|]. split; [exact ST|exact W].
Qed.

Lemma invoke_post k c ps s : good_state s -> good (srcs s) (c_node c) -> goods (srcs s) ps ->
  ensures (invoke E ex inv k c ps s) (post s).
Proof.
  intros G GC GP. unfold invoke. destruct (find_builtin k); [apply builtin_post; assumption|].
  unfold call_macro. apply exs_then; try assumption. intros ns s1 A1 G1 GN.
  destruct (get k (x_defs s1)) as [m|] eqn:Q; [|bad]. pose proof (proj2 G1 _ _ Q) as [GM GB].
  unfold apply_macro. eapply ens_bind.
  - apply frame_post; [exact G1|]. intros s0 G0 S0 _.
    apply (ens_bind _ _ (fun s' => after s0 s' /\ srcs s' = srcs s0)).
    + apply bind_list_after; [exact G0| | |]; rewrite S0; try assumption.
      apply good_site. eapply after_good; eassumption.
    + intros s2 [A2 S2]. apply (post_after s0 s2); [exact A2|]. apply exs_post; [apply A2|].
      rewrite S2, S0. exact GB.
  - intros [[ms d] s2] [A2 [G2 _]]. apply post_ok; assumption.
Qed.

Lemma expand_one_post n s : good_state s -> good (srcs s) n -> ensures (expand_one ex inv n s) (post s).
Proof.
  intros G GN. destruct n as [a|a|a|a|[|head tail] st ew es w|k v st w]; cbn [expand_one];
    try (apply done; [exact G|constructor; [exact GN|constructor]]).
  - destruct (starts_with _ _); [|apply done; [exact G|constructor; [exact GN|constructor]]].
    destruct (get _ (x_defs s)) as [m|] eqn:Q; [|bad]. pose proof (proj2 G _ _ Q) as [_ GB].
    destruct (m_params m); [|apply (bad_atom (srcs s)); [reflexivity|apply G|exact GN]]. apply exs_then; try assumption. intros ns s1 A1 G1 GN1.
    apply done; [exact G1|]. apply goods_first; [apply GN|exact GN1].
  - assert (P : forall s1, after s s1 -> ensures (let* '(ns, s) := exs ex (head :: tail) s1 in
        Ok ([Lst ns st ew es w], s)) (post s)).
    { intros s1 A1. apply (post_after s s1); [exact A1|]. apply good_lst in GN as [GN [O1 [O2 [O3 O4]]]].
      apply exs_then; [apply A1|eapply after_goods; eassumption|]. intros ns s2 A2 G2 GN2.
      assert (L : extends (srcs s) (srcs s2)) by (apply after_srcs; eapply after_trans; eassumption).
      apply done; [exact G2|]. constructor; [|constructor]. apply good_lst.
      split; [exact GN2|]. split; [exact (r_more _ _ _ _ _ R _ _ _ L O1)|]. split; [exact O2|].
      split; [exact (r_more _ _ _ _ _ R _ _ _ L O3)|exact O4]. }
    destruct (symbol head) as [a|]; [|apply P, after_refl, G].
    destruct (register _ s) as [c s1] eqn:Q.
    assert (A1 : after s s1).
    { unfold register in Q. inversion Q; subst. apply after_world; [exact G|reflexivity|reflexivity]. }
    destruct (starts_with _ _); [|apply P, A1]. apply (post_after s s1); [exact A1|].
    apply INV; [apply A1| |].
    + assert (c_node c = Lst (head :: tail) st ew es w) as -> by (unfold register in Q; inversion Q; reflexivity).
      eapply after_good; eassumption.
    + apply trim_good. eapply after_goods; [exact A1|]. apply good_lst in GN as [GN _]. inversion GN; assumption.
  - apply post_bind; [apply EX; [exact G|apply GN]|]. intros ns s1 A1 G1. destruct ns as [|x ns]; [bad|].
    inversion G1; subst. apply done; [apply A1|]. constructor; [|assumption].
    cbn in GN. destruct GN as [O1 [_ [O2 O3]]]. split; [exact O1|]. split; [assumption|].
    split; [exact (r_more _ _ _ _ _ R _ _ _ (after_srcs _ _ A1) O2)|exact O3].
Qed.
End Builtins.

Definition good_task (N : sources) (t : task) : Prop :=
  match t with TNode n => good N n | TInvoke _ c ps => good N (c_node c) /\ goods N ps end.

Lemma run_post f : forall t s, good_state s -> good_task (srcs s) t -> ensures (run E f t s) (post s).
Proof.
  induction f as [|f IH]; intros t s G GT; [bad|]. cbn [run].
  destruct t as [n|k c ps]; [apply expand_one_post|apply invoke_post]; try assumption; try apply GT.
  all: intros; apply IH; cbn; auto.
Qed.

Lemma expand_nodes_post f ns s : good_state s -> goods (srcs s) ns -> ensures (expand_nodes E f ns s) (post s).
Proof. intros G GN. apply exs_post; try assumption. intros n s0 G0 G1. apply run_post; assumption. Qed.

Lemma initial_good path text : okm [(path, text)] -> good_state (initial path text).
Proof. intros O. split; [split; [exact O|constructor]|]. intros k m Q. cbn in Q. rewrite get_no_defs in Q. discriminate. Qed.

Lemma expand_post f path text tree : okv text -> okm [(path, text)] ->
  parse (e_unescape E) 0 text = Ok tree ->
  ensures (expand E f path text) (post (initial path text)).
Proof.
  intros V O T. unfold expand. rewrite T. cbn [bind]. apply expand_nodes_post.
  - apply initial_good, O.
  - exact (r_parse _ _ _ _ _ R [] path text tree T V O).
Qed.
End Keep.
