(** * Proofs: what expansion does not depend on (C71)

    Two runs side by side, on trees that differ in positions only. *)

From Coq Require Import String List Ascii Bool Arith NArith ZArith Lia Permutation.
From Verif Require Import Text Res Ast Args Env Scope State Bind Data Paths Sorting Parser Numbers Expander
  Spec_tree Spec_keep Spec_moved Proofs_text Proofs_ast Proofs_keep Proofs_pos Proofs_scope.
From Verif Require Import Utf8 Args Expander.
Import ListNotations.

Section Moved.
Variable R : site -> site -> Prop.
Notation mv := (moved R).
Notation al := (alike R).
Notation ala := (alike_atom R).
Notation als := (Forall2 (alike R)).

(** ** Nodes *)

Lemma al_site n n' : al n n' -> mv (node_site n) (node_site n').
Proof. intros [a a' [_ [_ H]]|a a' [_ [_ H]]|a a' [_ [_ H]]|a a' [_ [_ H]]|ns ns' st st' ew es es' w _ H _|k v v' st st' w _ H]; exact H. Qed.
Lemma al_ws n n' : al n n' -> leading_ws n = leading_ws n'.
Proof. intros [a a' [_ [H _]]|a a' [_ [H _]]|a a' [_ [H _]]|a a' [_ [H _]]|ns ns' st st' ew es es' w _ _ _|k v v' st st' w _ _]; auto. Qed.
Lemma ala_ws w a a' : ala a a' -> ala (set_atom_ws w a) (set_atom_ws w a').
Proof. intros [A [_ B]]. repeat split; assumption. Qed.
Lemma al_set_ws w n n' : al n n' -> al (set_ws w n) (set_ws w n').
Proof. intros []; cbn; constructor; auto using ala_ws. Qed.
Lemma als_first w ns ns' : als ns ns' -> als (set_first_ws w ns) (set_first_ws w ns').
Proof. intros []; cbn; constructor; auto using al_set_ws. Qed.

Definition orel {X Y} (Q : X -> Y -> Prop) (o : option X) (o' : option Y) : Prop :=
  match o, o' with Some x, Some x' => Q x x' | None, None => True | _, _ => False end.
Lemma al_atomic n n' : al n n' -> orel ala (atomic n) (atomic n').
Proof. intros []; cbn; auto. Qed.
Lemma al_symbol n n' : al n n' -> orel ala (symbol n) (symbol n').
Proof. intros []; cbn; auto. Qed.
Lemma al_list_of n n' : al n n' -> orel als (list_of n) (list_of n').
Proof. intros []; cbn; auto. Qed.
Lemma al_null n n' : al n n' -> null n = null n'.
Proof. intros [| | | |? ? ? ? ? ? ? ? [] ? ?|]; reflexivity. Qed.

Lemma fa2_length {X Y} (Q : X -> Y -> Prop) l l' : Forall2 Q l l' -> length l = length l'.
Proof. intros H; induction H; cbn; congruence. Qed.
Lemma fa2_rev {X Y} (Q : X -> Y -> Prop) l l' : Forall2 Q l l' -> Forall2 Q (rev l) (rev l').
Proof. intros H; induction H; cbn; [constructor|]. apply Forall2_app; auto. Qed.
Lemma fa2_map {X Y X' Y'} (Q : X -> Y -> Prop) (Q' : X' -> Y' -> Prop) f f' l l' :
  (forall x y, Q x y -> Q' (f x) (f' y)) -> Forall2 Q l l' -> Forall2 Q' (map f l) (map f' l').
Proof. intros F H; induction H; cbn; constructor; auto. Qed.
Lemma fa2_map_eq {X Y Z} (Q : X -> Y -> Prop) (f : X -> Z) f' l l' :
  (forall x y, Q x y -> f x = f' y) -> Forall2 Q l l' -> map f l = map f' l'.
Proof. intros F H; induction H; cbn; f_equal; auto. Qed.
Lemma fa2_flat {X Y X' Y'} (Q : X -> Y -> Prop) (Q' : X' -> Y' -> Prop) f f' l l' :
  (forall x y, Q x y -> Forall2 Q' (f x) (f' y)) -> Forall2 Q l l' -> Forall2 Q' (flat_map f l) (flat_map f' l').
Proof. intros F H; induction H; cbn; [constructor|]. apply Forall2_app; auto. Qed.
Lemma fa2_nth {X Y} (Q : X -> Y -> Prop) l l' i : Forall2 Q l l' -> orel Q (nth_error l i) (nth_error l' i).
Proof. intros H; revert i; induction H; intros [|i]; cbn; auto. Qed.
Lemma fa2_combine {X Y X' Y'} (Q : X -> X' -> Prop) (P : Y -> Y' -> Prop) l l' m m' :
  Forall2 Q l l' -> Forall2 P m m' -> Forall2 (fun x y => Q (fst x) (fst y) /\ P (snd x) (snd y)) (combine l m) (combine l' m').
Proof. intros H; revert m m'; induction H; intros m m' [|]; cbn; constructor; auto. Qed.

(** ** Outcomes *)

Variable flag : bool.
Definition stop {X} : res X := if flag then Panic PExplicit else Hang.

Definition rel {X} (Q : X -> X -> Prop) (r r' : res X) : Prop :=
  r = stop \/
  match r, r' with
  | Ok x, Ok x' => Q x x'
  | Err (EErr k st), Err (EErr k' st') => k = k' /\ mv st st'
  | Panic p, Panic p' => p = p'
  | Hang, Hang | OutOfFuel, OutOfFuel => True
  | _, _ => False
  end.

Lemma stop_bind {X Y} (k : X -> res Y) : bind stop k = stop.
Proof. unfold stop. destruct flag; reflexivity. Qed.
Lemma rel_bind {X Y} (Q : X -> X -> Prop) (Q2 : Y -> Y -> Prop) r r' k k' :
  rel Q r r' -> (forall x x', Q x x' -> rel Q2 (k x) (k' x')) -> rel Q2 (bind r k) (bind r' k').
Proof.
  intros [->|H] K; [left; apply stop_bind|].
  destruct r as [x|[]|p| |], r' as [x'|[]|p'| |]; cbn [bind]; try contradiction; [apply K, H|right; exact H..].
Qed.
Lemma rel_ok {X} (Q : X -> X -> Prop) x x' : Q x x' -> rel Q (Ok x) (Ok x').
Proof. right. assumption. Qed.
Lemma rel_error {X} (Q : X -> X -> Prop) k st st' : mv st st' -> rel Q (error k st) (error k st').
Proof. right. cbn. auto. Qed.
Lemma rel_err {X} (Q : X -> X -> Prop) k st st' : mv st st' -> rel Q (Err (EErr k st)) (Err (EErr k st')).
Proof. right. cbn. auto. Qed.
Lemma rel_panic {X} (Q : X -> X -> Prop) p : rel Q (Panic p) (Panic p).
Proof. right. reflexivity. Qed.
Lemma rel_imp {X} (Q Q2 : X -> X -> Prop) r r' : (forall x x', Q x x' -> Q2 x x') -> rel Q r r' -> rel Q2 r r'.
Proof.
  intros I [->|H]; [left; reflexivity|]. right.
  destruct r as [x|[]|p| |], r' as [x'|[]|p'| |]; try contradiction; auto.
Qed.
Lemma rel_same {X} (r : res X) : (forall k st, r = Err (EErr k st) -> mv st st) -> rel eq r r.
Proof. intros H. right. destruct r as [x|[]|p| |]; auto. split; [reflexivity|]. eapply H. reflexivity. Qed.

Lemma rel_mapr {X Y} (P : X -> X -> Prop) (Q : Y -> Y -> Prop) f f' l l' :
  (forall x x', P x x' -> rel Q (f x) (f' x')) -> Forall2 P l l' -> rel (Forall2 Q) (mapr f l) (mapr f' l').
Proof.
  intros F H. induction H as [|x x' l l' A B IH]; cbn [mapr]; [apply rel_ok; constructor|].
  eapply rel_bind; [apply F, A|]. intros y y' Y1. eapply rel_bind; [exact IH|]. intros ys ys' Y2.
  apply rel_ok. constructor; assumption.
Qed.

(** ** Checked arguments *)

Definition literal_pred (p : pred) : Prop := match p with Exactly _ => True | _ => False end.
Definition plain_type (t : argtype) : Prop :=
  match t with
  | TList ts => ts = []
  | TLiteral ps | TString ps | TSymbol ps | TNumber ps | TSymbolic ps | TAny ps => Forall literal_pred ps
  end.
Definition plain_rules (rs : rules) : Prop :=
  Forall (fun r => plain_type (argtype_of (r_arg r))) (patterns rs) /\
  match trailing rs with Some t => plain_type t | None => True end.

Lemma pred_alike p n n' : literal_pred p -> al n n' -> pred_ok p n = pred_ok p n'.
Proof. intros P A. destruct p; [|destruct P..]. cbn. apply al_atomic in A. destruct (atomic n), (atomic n'); try contradiction; [|reflexivity]. destruct A as [-> _]. reflexivity. Qed.
Lemma check_all_alike ps n n' : Forall literal_pred ps -> al n n' -> rel eq (check_all ps n) (check_all ps n').
Proof.
  intros P A. unfold check_all. destruct ps as [|p ps]; [apply rel_ok; reflexivity|].
  replace (existsb (fun p => pred_ok p n') (p :: ps)) with (existsb (fun p => pred_ok p n) (p :: ps)).
  - destruct (existsb _ _); [apply rel_ok; reflexivity|apply rel_err, al_site, A].
  - clear -P A. induction P as [|q qs Q _ IH]; [reflexivity|]. cbn. rewrite (pred_alike _ _ _ Q A), IH. reflexivity.
Qed.
Lemma check_alike t n n' : plain_type t -> al n n' -> rel eq (check t n) (check t n').
Proof.
  intros P A. assert (S := al_site _ _ A). assert (C := fun ps H => check_all_alike ps _ _ H A).
  destruct t as [ps|ps|ps|ps|ps|ts|ps]; cbn in P; destruct A; cbn [check node_site] in *;
    try (apply C, P); try (apply rel_err, S).
  subst ts. cbn. apply rel_ok. reflexivity.
Qed.

Notation pr := (fun x y => fst x = fst y /\ al (snd x) (snd y)).
Definition parsed_alike (p p' : parsed) : Prop :=
  Forall2 pr (p_num p) (p_num p') /\ Forall2 pr (p_named p) (p_named p') /\ als (p_rest p) (p_rest p').

Lemma parse_params_alike rs ps ps' : plain_rules rs -> als ps ps' -> forall i m acc acc', parsed_alike acc acc' ->
  rel (fun x y => parsed_alike (fst x) (fst y) /\ snd x = snd y) (parse_params rs ps i m acc) (parse_params rs ps' i m acc').
Proof.
  intros [PL TL] H. induction H as [|p p' ps ps' A B IH]; intros i m acc acc' C; [apply rel_ok; auto|].
  cbn [parse_params].
  assert (M : exists matcher param param' j,
    match p with Attr k v _ _ => (PStr k, v, i) | _ => (PInt (S i), p, S i) end = (matcher, param, j) /\
    match p' with Attr k v _ _ => (PStr k, v, i) | _ => (PInt (S i), p', S i) end = (matcher, param', j) /\ al param param').
  { destruct A; do 4 eexists; (split; [reflexivity|]; split; [reflexivity|]); auto using al_sym, al_num, al_str, al_raw.
    constructor; assumption. }
  destruct M as (matcher & param & param' & j & -> & -> & AP).
  destruct (find (rule_matches matcher) (patterns rs)) as [r|] eqn:F.
  - apply find_some in F as [F _]. rewrite Forall_forall in PL. specialize (PL _ F).
    eapply rel_bind; [apply check_alike; [exact PL|exact AP]|]. intros _ _ _. apply IH.
    destruct C as [C1 [C2 C3]]. destruct matcher; repeat split; cbn; auto.
  - destruct (trailing rs) as [t|].
    + eapply rel_bind; [apply check_alike; [exact TL|exact A]|]. intros _ _ _. apply IH.
      destruct C as [C1 [C2 C3]]. repeat split; cbn; auto. apply Forall2_app; auto.
    + destruct A; apply rel_err; cbn; try assumption; match goal with X : alike_atom _ _ _ |- _ => apply X end.
Qed.

Lemma parse_args_alike rs c c' ps ps' : plain_rules rs -> al c c' -> als ps ps' ->
  rel parsed_alike (parse_args rs c ps) (parse_args rs c' ps').
Proof.
  intros PL C P. unfold parse_args. eapply rel_bind.
  { apply parse_params_alike; [exact PL|exact P|]. repeat split; constructor. }
  intros [acc m] [acc' m'] [A B]. cbn in A, B. subst m'.
  destruct (m <? count_mandatory rs); [|apply rel_ok, A].
  apply rel_err. destruct (fa2_rev _ _ _ P); apply al_site; assumption.
Qed.

Inductive value_alike : value -> value -> Prop :=
| va_atom a a' : ala a a' -> value_alike (VAtom a) (VAtom a')
| va_list ns ns' : als ns ns' -> value_alike (VList ns) (VList ns')
| va_node n n' : al n n' -> value_alike (VNode n) (VNode n').

Lemma convert_alike t n n' : al n n' -> rel value_alike (convert t n) (convert t n').
Proof.
  intros A. assert (B := al_atomic _ _ A). assert (C := al_list_of _ _ A).
  destruct t; cbn [convert]; try (destruct (atomic n), (atomic n'); try contradiction; [apply rel_ok; constructor; exact B|apply rel_panic]).
  - destruct (list_of n), (list_of n'); try contradiction; [apply rel_ok; constructor; exact C|apply rel_panic].
  - apply rel_ok. constructor. exact A.
Qed.

Lemma assoc_nat_alike i l l' : Forall2 pr l l' -> orel al (assoc_nat i l) (assoc_nat i l').
Proof.
  intros H. induction H as [|[j x] [j' x'] l l' [A B] H IH]; [exact I|]. cbn in A, B |- *. subst j'.
  destruct (i =? j); [exact B|exact IH].
Qed.
Lemma assoc_alike k l l' : Forall2 pr l l' -> orel al (assoc k l) (assoc k l').
Proof.
  intros H. induction H as [|[j x] [j' x'] l l' [A B] H IH]; [exact I|]. cbn in A, B |- *. subst j'.
  destruct (beq k j); [exact B|exact IH].
Qed.

Notation vr := (fun x y => fst x = fst y /\ value_alike (snd x) (snd y)).
Definition args_alike (x x' : args) : Prop :=
  Forall2 vr (x_args x) (x_args x') /\ Forall2 value_alike (x_rest x) (x_rest x').

Lemma extract_alike c c' p p' a pos : al c c' -> parsed_alike p p' ->
  rel (Forall2 vr) (extract_one c p a pos) (extract_one c' p' a pos).
Proof.
  intros C [P1 [P2 _]]. unfold extract_one.
  assert (G : orel al (get_param p pos) (get_param p' pos)).
  { destruct pos; [apply assoc_nat_alike|apply assoc_alike]; assumption. }
  destruct (get_param p pos), (get_param p' pos); try contradiction.
  - eapply rel_bind; [apply convert_alike, G|]. intros v v' V. apply rel_ok. repeat constructor. exact V.
  - destruct (is_mandatory a); [apply rel_err, al_site, C|apply rel_ok; constructor].
Qed.

Lemma concat_alike {X Y} (Q : X -> Y -> Prop) l l' : Forall2 (Forall2 Q) l l' -> Forall2 Q (concat l) (concat l').
Proof. intros H; induction H; cbn; [constructor|]. apply Forall2_app; assumption. Qed.
Lemma fa2_refl {X} (Q : X -> X -> Prop) l : (forall x, Q x x) -> Forall2 Q l l.
Proof. intros H. induction l; constructor; auto. Qed.

Lemma arguments_alike rs c c' ps ps' : plain_rules rs -> al c c' -> als ps ps' ->
  rel args_alike (arguments rs c ps) (arguments rs c' ps').
Proof.
  intros PL C P. unfold arguments. eapply rel_bind; [apply parse_args_alike; eassumption|]. intros p p' A.
  eapply rel_bind.
  { apply (rel_mapr eq); [|apply fa2_refl; reflexivity]. intros [a pos] _ <-. apply extract_alike; eassumption. }
  intros xs xs' X. eapply (rel_bind (Forall2 value_alike)).
  { destruct (trailing rs); [|apply rel_ok; constructor].
    apply (rel_mapr (alike R)); [intros; apply convert_alike; assumption|apply A]. }
  intros rest rest' Y. apply rel_ok. split; [apply concat_alike, X|exact Y].
Qed.

Lemma arg_at_alike pos l l' : Forall2 vr l l' -> orel value_alike (arg_at pos l) (arg_at pos l').
Proof.
  intros H. induction H as [|[j x] [j' x'] l l' [A B] H IH]; [exact I|]. cbn in A, B |- *. subst j'.
  destruct (argpos_eqb pos j); [exact B|exact IH].
Qed.
Lemma as_atom_alike v v' : value_alike v v' -> rel ala (as_atom v) (as_atom v').
Proof. intros []; cbn; [apply rel_ok; assumption|apply rel_panic..]. Qed.
Lemma as_list_alike v v' : value_alike v v' -> rel als (as_list v) (as_list v').
Proof. intros []; cbn; [apply rel_panic|apply rel_ok; assumption|apply rel_panic]. Qed.
Lemma as_node_alike v v' : value_alike v v' -> rel al (as_node v) (as_node v').
Proof. intros []; cbn; [apply rel_panic..|apply rel_ok; assumption]. Qed.
Lemma need_alike {X} (Q : X -> X -> Prop) as_ pos x x' :
  (forall v v', value_alike v v' -> rel Q (as_ v) (as_ v')) -> args_alike x x' -> rel Q (need as_ pos x) (need as_ pos x').
Proof.
  intros V [A _]. unfold need. apply (arg_at_alike pos) in A.
  destruct (arg_at pos (x_args x)), (arg_at pos (x_args x')); try contradiction; [apply V, A|apply rel_panic].
Qed.
Lemma want_alike {X} (Q : X -> X -> Prop) as_ pos x x' :
  (forall v v', value_alike v v' -> rel Q (as_ v) (as_ v')) -> args_alike x x' -> rel (orel Q) (want as_ pos x) (want as_ pos x').
Proof.
  intros V [A _]. unfold want. apply (arg_at_alike pos) in A.
  destruct (arg_at pos (x_args x)), (arg_at pos (x_args x')); try contradiction; [|apply rel_ok; exact I].
  apply V in A. destruct A as [->|A].
  - left. unfold stop. destruct flag; reflexivity.
  - right. destruct (as_ v) as [|[]| | |], (as_ v0) as [|[]| | |]; cbn; try contradiction; auto.
Qed.
Lemma rest_alike {X} (Q : X -> X -> Prop) as_ x x' :
  (forall v v', value_alike v v' -> rel Q (as_ v) (as_ v')) -> args_alike x x' -> rel (Forall2 Q) (rest_of as_ x) (rest_of as_ x').
Proof. intros V [_ A]. apply (rel_mapr value_alike); assumption. Qed.

(** ** States *)

Notation ad := (alike_defs R).
Definition worlds (w w' : world) : Prop :=
  alike_lines R (g_log w) (g_log w') /\ g_seed w = g_seed w' /\ g_ordered w = g_ordered w' /\
  map fst (g_sources w) = map fst (g_sources w') /\ 0 < length (g_sources w) /\ g_freed w = g_freed w' /\ g_dangling w = g_dangling w'.
Definition sa (s s' : state) : Prop :=
  ad (x_defs s) (x_defs s') /\ x_vec s = x_vec s' /\ worlds (x_world s) (x_world s').
Notation os := (rel (fun x y => als (fst x) (fst y) /\ sa (snd x) (snd y))).
Notation ss := (rel sa).

Lemma sa_defs d d' s s' : ad d d' -> sa s s' -> sa (set_defs d s) (set_defs d' s').
Proof. intros D [_ S]. split; [exact D|exact S]. Qed.
Lemma ad_put k m m' d d' : alike_macro R m m' -> ad d d' -> ad (put k m d) (put k m' d').
Proof.
  intros M D j. destruct (beq j k) eqn:Q.
  - apply beq_eq in Q as ->. rewrite !get_put_same. exact M.
  - rewrite !get_put_other by (intros ->; rewrite beq_refl in Q; discriminate). apply D.
Qed.
Lemma sa_put_var k body body' s s' : als body body' -> sa s s' -> sa (put_var k body s) (put_var k body' s').
Proof. intros A S. apply sa_defs; [|exact S]. apply ad_put; [|apply S]. split; [constructor|exact A]. Qed.
Ltac worldly := intros [D [V [L [A [B [C [N [F G]]]]]]]]; repeat split; cbn; try assumption; try congruence.
Lemma sa_new_maps n s s' : sa s s' -> sa (new_maps n s) (new_maps n s').
Proof. worldly. Qed.
Lemma sa_order s s' : sa s s' -> sa (order_matters s) (order_matters s').
Proof. worldly. Qed.
Lemma sa_log st st' t s s' : mv st st' -> sa s s' -> sa (log_line st t s) (log_line st' t s').
Proof. intros M. worldly. apply Forall2_app; [exact L|]. repeat constructor. exact M. Qed.
Definition calls (c c' : call) : Prop := al (c_node c) (c_node c') /\ c_gen c = c_gen c'.
Lemma sa_touch c c' s s' : calls c c' -> sa s s' -> sa (touch c s) (touch c' s').
Proof.
  intros [_ Q] S. unfold touch. destruct S as [D [V W]]. rewrite <- Q, <- V.
  destruct (_ =? _); [split; [exact D|split; [exact V|exact W]]|].
  destruct W as [L [A [B [C [N [F G]]]]]]. repeat split; cbn; try assumption; congruence.
Qed.
Lemma sa_register n n' s s' : al n n' -> sa s s' ->
  calls (fst (register n s)) (fst (register n' s')) /\ sa (snd (register n s)) (snd (register n' s')).
Proof.
  intros A [D [V W]]. cbn. rewrite V. split; [split; [exact A|reflexivity]|]. split; [exact D|split; [reflexivity|exact W]].
Qed.
Lemma call_site_alike c c' : calls c c' -> mv (call_site c) (call_site c').
Proof. intros [A _]. apply al_site, A. Qed.
Lemma call_ws_alike c c' : calls c c' -> call_ws c = call_ws c'.
Proof. intros [A _]. apply al_ws, A. Qed.
Lemma here_alike c c' v : calls c c' -> ala (here c v) (here c' v).
Proof. intros A. split; [reflexivity|]. split; [apply call_ws_alike, A|apply call_site_alike, A]. Qed.

Lemma in_frame_alike m m' s s' : (forall s s', sa s s' -> os (m s) (m' s')) -> sa s s' ->
  rel (fun x y => als (fst (fst x)) (fst (fst y)) /\ ad (snd (fst x)) (snd (fst y)) /\ sa (snd x) (snd y)) (in_frame m s) (in_frame m' s').
Proof.
  intros M [D [V W]]. unfold in_frame. eapply rel_bind.
  { apply M. split; [exact D|]. split; [cbn; rewrite V; reflexivity|exact W]. }
  intros [x s1] [x' s1'] [A [D1 [V1 W1]]]. cbn in *. apply rel_ok. cbn. split; [exact A|]. split; [exact D1|].
  split; [exact D|]. split; [exact V|].
  destruct W as [_ [_ [_ [C [_ _]]]]]. destruct W1 as [L1 [A1 [B1 [C1 [N1 [F1 G1]]]]]]. repeat split; cbn; auto.
  rewrite F1. f_equal. apply (f_equal (@length _)) in C, C1. rewrite !map_length in C, C1. rewrite C, C1. reflexivity.
Qed.

(** ** Binding *)

Variable E : env.

Lemma insert_alike k n n' l l' : al n n' -> Forall2 pr l l' -> Forall2 pr (named_insert k n l) (named_insert k n' l').
Proof.
  intros A H. induction H as [|[j x] [j' x'] l l' [B C] H IH]; cbn; [repeat constructor; exact A|].
  cbn in B, C. subst j'. destruct (beq k j); constructor; auto.
Qed.
Lemma remove_alike k l l' : Forall2 pr l l' -> Forall2 pr (named_remove k l) (named_remove k l').
Proof.
  intros H. unfold named_remove. induction H as [|[j x] [j' x'] l l' [B C] H IH]; cbn; [constructor|].
  cbn in B, C. subst j'. destruct (beq k j); cbn; auto.
Qed.
Lemma next_alike l l' : als l l' -> forall m m', Forall2 pr m m' ->
  orel (fun x y => al (fst (fst x)) (fst (fst y)) /\ als (snd (fst x)) (snd (fst y)) /\ Forall2 pr (snd x) (snd y))
    (next_positional l m) (next_positional l' m').
Proof.
  intros H. induction H as [|n n' l l' A H IH]; intros m m' M; cbn [next_positional]; [exact I|].
  destruct A; cbn; try (repeat split; auto; constructor; assumption).
  apply IH, insert_alike; [constructor; assumption|exact M].
Qed.
Lemma leftover_alike l l' : als l l' -> forall m m', Forall2 pr m m' ->
  als (fst (leftover l m)) (fst (leftover l' m')) /\ Forall2 pr (snd (leftover l m)) (snd (leftover l' m')).
Proof.
  intros H. induction H as [|n n' l l' A H IH]; intros m m' M; cbn [leftover]; [split; [constructor|exact M]|].
  assert (G : als (fst (let '(rest, named) := leftover l m in (n :: rest, named))) (fst (let '(rest, named) := leftover l' m' in (n' :: rest, named))) /\
    Forall2 pr (snd (let '(rest, named) := leftover l m in (n :: rest, named))) (snd (let '(rest, named) := leftover l' m' in (n' :: rest, named)))).
  { destruct (IH m m' M) as [B C]. destruct (leftover l m), (leftover l' m'). cbn in *. split; [constructor; assumption|exact C]. }
  destruct A; try exact G. apply IH, insert_alike; [constructor; assumption|exact M].
Qed.

Definition progress_alike (p p' : progress) : Prop :=
  als (b_rhs p) (b_rhs p') /\ Forall2 pr (b_rhs_named p) (b_rhs_named p') /\ Forall2 pr (b_lhs_named p) (b_lhs_named p') /\
  orel ala (b_rest p) (b_rest p') /\ orel ala (b_rest_kw p) (b_rest_kw p').
Definition binds_alike (n n' : node) : Prop := forall v v' s s', al v v' -> sa s s' -> ss (bind_node E n v s) (bind_node E n' v' s').

Lemma rest_kw_alike n n' : al n n' -> orel ala (is_rest_kw n) (is_rest_kw n').
Proof.
  intros A. unfold is_rest_kw. apply al_symbol in A. destruct (symbol n), (symbol n'); try contradiction; [|exact I].
  destruct A as [Q A]. rewrite <- Q. destruct (starts_with _ _); [split; assumption|exact I].
Qed.
Lemma is_rest_alike n n' : al n n' -> orel ala (is_rest n) (is_rest n').
Proof.
  intros A. unfold is_rest. apply al_symbol in A. destruct (symbol n), (symbol n'); try contradiction; [|exact I].
  destruct A as [Q A]. rewrite <- Q. destruct (starts_with _ _); [split; assumption|exact I].
Qed.

Lemma positional_alike st st' pats pats' : mv st st' -> Forall2 (fun n n' => al n n' /\ binds_alike n n') pats pats' ->
  forall p p' s s', progress_alike p p' -> sa s s' ->
  rel (fun x y => progress_alike (fst x) (fst y) /\ sa (snd x) (snd y))
    (bind_positional (bind_node E) st pats p s) (bind_positional (bind_node E) st' pats' p' s').
Proof.
  intros M H. induction H as [|n n' pats pats' [A B] H IH]; intros p p' s s' P S; cbn [bind_positional]; [apply rel_ok; auto|].
  assert (G : rel (fun x y => progress_alike (fst x) (fst y) /\ sa (snd x) (snd y))
    match is_rest_kw n, is_rest n with
          | Some a, _ =>
              match b_rest_kw p with
              | Some _ => Err (EErr EBindMultiRest (node_site n))
              | None => bind_positional (bind_node E) st pats
                          (Progress (b_rhs p) (b_rhs_named p) (b_lhs_named p)
                                    (b_rest p) (Some a)) s
              end
          | None, Some a =>
              match b_rest p with
              | Some _ => Err (EErr EBindMultiRest (node_site n))
              | None => bind_positional (bind_node E) st pats
                          (Progress (b_rhs p) (b_rhs_named p) (b_lhs_named p)
                                    (Some a) (b_rest_kw p)) s
              end
          | None, None =>
              match next_positional (b_rhs p) (b_rhs_named p) with
              | None => Err (EErr EBindTooFew st)
              | Some (n1, rhs, named) =>
                  let* s := bind_node E n n1 s in
                  bind_positional (bind_node E) st pats
                    (Progress rhs named (b_lhs_named p) (b_rest p) (b_rest_kw p)) s
              end
          end
    match is_rest_kw n', is_rest n' with
          | Some a, _ =>
              match b_rest_kw p' with
              | Some _ => Err (EErr EBindMultiRest (node_site n'))
              | None => bind_positional (bind_node E) st' pats'
                          (Progress (b_rhs p') (b_rhs_named p') (b_lhs_named p')
                                    (b_rest p') (Some a)) s'
              end
          | None, Some a =>
              match b_rest p' with
              | Some _ => Err (EErr EBindMultiRest (node_site n'))
              | None => bind_positional (bind_node E) st' pats'
                          (Progress (b_rhs p') (b_rhs_named p') (b_lhs_named p')
                                    (Some a) (b_rest_kw p')) s'
              end
          | None, None =>
              match next_positional (b_rhs p') (b_rhs_named p') with
              | None => Err (EErr EBindTooFew st')
              | Some (n1, rhs, named) =>
                  let* s := bind_node E n' n1 s' in
                  bind_positional (bind_node E) st' pats'
                    (Progress rhs named (b_lhs_named p') (b_rest p') (b_rest_kw p')) s
              end
          end).
  { destruct P as [P1 [P2 [P3 [P4 P5]]]]. assert (K := rest_kw_alike _ _ A). assert (K2 := is_rest_alike _ _ A).
    destruct (is_rest_kw n), (is_rest_kw n'); try contradiction.
    - destruct (b_rest_kw p), (b_rest_kw p'); try contradiction; [apply rel_err, al_site, A|].
      apply IH; [|exact S]. repeat split; cbn; auto; apply K.
    - destruct (is_rest n), (is_rest n'); try contradiction.
      + destruct (b_rest p), (b_rest p'); try contradiction; [apply rel_err, al_site, A|].
        apply IH; [|exact S]. repeat split; cbn; auto; apply K2.
      + assert (N := next_alike _ _ P1 _ _ P2).
        destruct (next_positional (b_rhs p) (b_rhs_named p)) as [[[n1 rhs] named]|],
          (next_positional (b_rhs p') (b_rhs_named p')) as [[[n1' rhs'] named']|]; try contradiction; [|apply rel_err, M].
        destruct N as [N1 [N2 N3]]. eapply rel_bind; [apply B; [exact N1|exact S]|]. intros s1 s1' S1.
        apply IH; [|exact S1]. repeat split; cbn; auto. }
  destruct A; try exact G. apply IH; [|exact S].
  destruct P as [P1 [P2 [P3 [P4 P5]]]]. repeat split; cbn; auto. apply insert_alike; assumption.
Qed.

Lemma named_alike keys l l' : Forall2 pr l l' -> forall r r' s s', Forall2 pr r r' -> sa s s' ->
  Forall2 pr (fst (bind_named keys l r s)) (fst (bind_named keys l' r' s')) /\
  sa (snd (bind_named keys l r s)) (snd (bind_named keys l' r' s')).
Proof.
  intros L. induction keys as [|k keys IH]; intros r r' s s' H S; cbn [bind_named]; [auto|].
  apply IH; [apply remove_alike, H|].
  assert (V : orel al match assoc k r with Some (Attr _ v _ _) => Some v | _ => assoc k l end
                      match assoc k r' with Some (Attr _ v _ _) => Some v | _ => assoc k l' end).
  { assert (A := assoc_alike k _ _ H). assert (B := assoc_alike k _ _ L).
    destruct (assoc k r) as [n|], (assoc k r') as [n'|]; try contradiction; [|exact B]. destruct A; try exact B. exact A. }
  destruct (match assoc k r with Some (Attr _ v _ _) => Some v | _ => assoc k l end),
    (match assoc k r' with Some (Attr _ v _ _) => Some v | _ => assoc k l' end); try contradiction; [|exact S].
  apply sa_put_var; [repeat constructor; exact V|exact S].
Qed.
Lemma entries_alike keys l l' : Forall2 pr l l' -> als (entries keys l) (entries keys l').
Proof.
  intros L. unfold entries. induction keys as [|k keys IH]; cbn; [constructor|]. apply Forall2_app; [|exact IH].
  assert (A := assoc_alike k _ _ L). destruct (assoc k l), (assoc k l'); try contradiction; repeat constructor. exact A.
Qed.
Lemma keys_alike (l l' : list (bytes * node)) : Forall2 pr l l' -> map fst l = map fst l'.
Proof. apply fa2_map_eq. intros x y [A _]. exact A. Qed.

Lemma bind_rest_alike seed p p' s s' : progress_alike p p' -> sa s s' -> ss (bind_rest E seed p s) (bind_rest E seed p' s').
Proof.
  intros [P1 [P2 [P3 [P4 P5]]]] S. unfold bind_rest.
  destruct (leftover_alike _ _ P1 _ _ P2) as [L1 L2].
  destruct (leftover (b_rhs p) (b_rhs_named p)) as [rest rn], (leftover (b_rhs p') (b_rhs_named p')) as [rest' rn'].
  cbn in L1, L2. eapply (rel_bind sa).
  { destruct (b_rest p) as [a|], (b_rest p') as [a'|]; try contradiction.
    - destruct P4 as [<- _]. apply rel_ok, sa_put_var; assumption.
    - destruct (fa2_rev _ _ _ L1); [apply rel_ok, S|apply rel_err, al_site; assumption]. }
  intros s1 s1' S1. rewrite <- (keys_alike _ _ P3).
  destruct (named_alike (e_order E (Datatypes.S seed) (map fst (b_lhs_named p))) _ _ P3 _ _ _ _ L2 S1) as [N1 N2].
  destruct (bind_named _ (b_lhs_named p) rn s1) as [rn1 s2], (bind_named _ (b_lhs_named p') rn' s1') as [rn1' s2'].
  cbn in N1, N2. rewrite <- (keys_alike _ _ N1), <- (fa2_length _ _ _ N1).
  assert (EN := entries_alike (e_order E seed (map fst rn1)) _ _ N1).
  destruct (b_rest_kw p) as [a|], (b_rest_kw p') as [a'|]; try contradiction.
  - destruct P5 as [<- _]. apply rel_ok, sa_put_var; [exact EN|]. destruct (2 <=? length rn1); [apply sa_order|]; exact N2.
  - destruct EN; [apply rel_ok, N2|apply rel_err, al_site; assumption].
Qed.

Lemma bind_list_alike st st' pats pats' vals vals' s s' : mv st st' ->
  Forall2 (fun n n' => al n n' /\ binds_alike n n') pats pats' -> als vals vals' -> sa s s' ->
  ss (bind_list_with E (bind_node E) st pats vals s) (bind_list_with E (bind_node E) st' pats' vals' s').
Proof.
  intros M P V S. unfold bind_list_with.
  assert (Q : g_seed (x_world s) = g_seed (x_world s')) by (destruct S as [_ [_ [_ [Q _]]]]; exact Q). rewrite <- Q.
  eapply rel_bind.
  { apply positional_alike; [exact M|exact P| |apply sa_new_maps, S]. repeat split; cbn; auto. }
  intros [p s1] [p' s1'] [P1 S1]. cbn in *. apply bind_rest_alike; assumption.
Qed.

Lemma bind_node_alike p : forall p', al p p' -> binds_alike p p'.
Proof.
  induction p as [a|a|a|a|pats st ew es w IH|k p st w IH] using node_ind'; intros p' A v v' s s' V S;
    inversion A as [? ? Q|? ? Q|? ? Q|? ? Q|? ? ? ? ? ? ? ? Q M1 M2|? ? ? ? ? ? Q M1]; subst; cbn [bind_node].
  - destruct Q as [<- _]. apply rel_ok, sa_put_var; [repeat constructor; exact V|exact S].
  - assert (M := al_site _ _ V). destruct Q as [<- _]. destruct V as [? ? [X _]|? ? [X _]|? ? [X _]|? ? [X _]| |]; cbn in M; try (apply rel_err, M).
    rewrite <- X. destruct (beq _ _); [apply rel_ok, S|apply rel_err, M].
  - assert (M := al_site _ _ V). destruct Q as [<- _]. destruct V as [? ? [X _]|? ? [X _]|? ? [X _]|? ? [X _]| |]; cbn in M; try (apply rel_err, M);
    rewrite <- X; destruct (beq _ _); [apply rel_ok, S|apply rel_err, M|apply rel_ok, S|apply rel_err, M].
  - assert (M := al_site _ _ V). destruct Q as [<- _]. destruct V as [? ? [X _]|? ? [X _]|? ? [X _]|? ? [X _]| |]; cbn in M; try (apply rel_err, M);
    rewrite <- X; destruct (beq _ _); [apply rel_ok, S|apply rel_err, M|apply rel_ok, S|apply rel_err, M].
  - assert (M := al_site _ _ V). destruct V; cbn [node_site] in M |- *; try (apply rel_err, M).
    apply bind_list_alike; [exact M| |assumption|exact S].
    clear -IH Q. induction Q as [|n n' l l' X Y IH2]; [constructor|].
    inversion IH; subst. constructor; [split; [exact X|]|]; auto.
  - assert (M := al_site _ _ V). destruct V; cbn [node_site] in M |- *; try (apply rel_err, M).
    destruct (beq k k0); [apply IH; assumption|apply rel_err, M].
Qed.
Lemma bind_pats_alike pats pats' : als pats pats' -> Forall2 (fun n n' => al n n' /\ binds_alike n n') pats pats'.
Proof. intros H. induction H; constructor; auto. split; [assumption|]. apply bind_node_alike. assumption. Qed.

(** ** Data *)

Definition sinks (k k' : sink) : Prop :=
  y_defining k = y_defining k' /\ als (y_nodes k) (y_nodes k') /\ Forall2 als (y_parent k) (y_parent k') /\
  y_prefix k = y_prefix k' /\ y_mode k = y_mode k' /\ y_modes k = y_modes k'.
Lemma unless_alike ns ns' : als ns ns' -> unless_first ns = unless_first ns'.
Proof. intros []; reflexivity. Qed.
Lemma ad_var k n n' d d' : al n n' -> ad d d' -> ad (put k (variable [n]) d) (put k (variable [n']) d').
Proof. intros A D. apply ad_put; [|exact D]. split; cbn; repeat constructor. exact A. Qed.
Lemma als_snoc n n' l l' : als l l' -> al n n' -> als (l ++ [n]) (l' ++ [n']).
Proof. intros A B. apply Forall2_app; [exact A|]. repeat constructor. exact B. Qed.

Lemma event_alike sep st st' e k k' d d' : mv st st' -> sinks k k' -> ad d d' ->
  rel (fun x y => sinks (fst x) (fst y) /\ ad (snd x) (snd y)) (y_event sep st e k d) (y_event sep st' e k' d').
Proof.
  intros M [K1 [K2 [K3 [K4 [K5 K6]]]]] D. destruct k as [df ns ps px md ms], k' as [df' ns' ps' px' md' ms']. cbn in K1, K2, K3, K4, K5, K6. subst df' px' md' ms'.
  destruct e; cbn [y_event y_defining y_mode y_nodes y_prefix y_parent y_modes].
  - rewrite <- (unless_alike _ _ K2), <- (fa2_length _ _ _ K2).
    assert (A : forall w, al (Str (Atom v st w)) (Str (Atom v st' w))) by (intros; constructor; repeat split; exact M).
    destruct df as [name|]; destruct md as [[]|]; try apply rel_panic; apply rel_ok; cbn;
      (split; [|first [exact D|apply ad_var; [apply A|exact D]]]); (repeat split; cbn; auto); try apply als_snoc; auto; constructor; auto; repeat split; exact M.
  - apply rel_ok. split; [|exact D]. repeat split; cbn; auto. 
  - unfold y_end. cbn.
    assert (X : exists mode modes, match ms with m :: r => (Some m, r) | [] => (None, []) end = (mode, modes)) by (destruct ms; eauto).
    destruct X as (mode & modes & ->).
    assert (X : exists n1 n1' p1 p1', match ps with x :: r => (x, r) | [] => ([], []) end = (n1, p1) /\
       match ps' with x :: r => (x, r) | [] => ([], []) end = (n1', p1') /\ als n1 n1' /\ Forall2 als p1 p1').
    { destruct K3; do 4 eexists; (split; [reflexivity|]; split; [reflexivity|]); split; auto. }
    destruct X as (n1 & n1' & p1 & p1' & -> & -> & N & P).
    destruct (pop_prefix px) as [name prefix]. rewrite <- (unless_alike _ _ N), <- (fa2_length _ _ _ N).
    assert (A : forall w, al (rlist st ns w) (rlist st' ns' w)) by (intros; constructor; assumption).
    destruct mode as [[]|], name as [name|]; try apply rel_panic; apply rel_ok; cbn;
      (split; [|first [exact D|apply ad_var; [apply A|exact D]]]); (repeat split; cbn; auto); apply als_snoc; auto; constructor; auto; apply A.
  - apply rel_ok. split; [|exact D]. repeat split; cbn; auto. 
  - unfold y_end. cbn.
    assert (X : exists mode modes, match ms with m :: r => (Some m, r) | [] => (None, []) end = (mode, modes)) by (destruct ms; eauto).
    destruct X as (mode & modes & ->).
    assert (X : exists n1 n1' p1 p1', match ps with x :: r => (x, r) | [] => ([], []) end = (n1, p1) /\
       match ps' with x :: r => (x, r) | [] => ([], []) end = (n1', p1') /\ als n1 n1' /\ Forall2 als p1 p1').
    { destruct K3; do 4 eexists; (split; [reflexivity|]; split; [reflexivity|]); split; auto. }
    destruct X as (n1 & n1' & p1 & p1' & -> & -> & N & P).
    destruct (pop_prefix px) as [name prefix]. rewrite <- (unless_alike _ _ N), <- (fa2_length _ _ _ N).
    assert (A : forall w, al (rlist st ns w) (rlist st' ns' w)) by (intros; constructor; assumption).
    destruct mode as [[]|], name as [name|]; try apply rel_panic; apply rel_ok; cbn;
      (split; [|first [exact D|apply ad_var; [apply A|exact D]]]); (repeat split; cbn; auto); apply als_snoc; auto; constructor; auto; apply A.
  - apply rel_ok. split; [|exact D]. repeat split; cbn; auto. 
Qed.
Lemma events_alike sep st st' es : mv st st' -> forall k k' d d', sinks k k' -> ad d d' ->
  rel (fun x y => sinks (fst x) (fst y) /\ ad (snd x) (snd y)) (y_events sep st es k d) (y_events sep st' es k' d').
Proof.
  intros M. induction es as [|e es IH]; intros k k' d d' K D; cbn [y_events]; [apply rel_ok; auto|].
  eapply rel_bind; [apply event_alike; eassumption|]. intros [k1 d1] [k1' d1'] [A B]. apply IH; assumption.
Qed.
Lemma yaml_alike text sep st st' d d' : mv st st' -> ad d d' ->
  rel (fun x y => rel als (fst x) (fst y) /\ ad (snd x) (snd y)) (expand_yaml E text sep st d) (expand_yaml E text sep st' d').
Proof.
  intros M D. unfold expand_yaml. destruct (e_yaml E text) as [es ok].
  eapply rel_bind; [apply events_alike; [exact M| |exact D]|].
  { repeat split; constructor. }
  intros [k1 d1] [k1' d1'] [A B]. apply rel_ok. cbn in *. split; [|exact B].
  destruct ok; [apply rel_ok, A|apply rel_err, M].
Qed.

Lemma traverse_alike sep st st' v : mv st st' -> forall prefix leading d d', ad d d' ->
  al (fst (traverse sep st prefix v leading d)) (fst (traverse sep st' prefix v leading d')) /\
  ad (snd (traverse sep st prefix v leading d)) (snd (traverse sep st' prefix v leading d')).
Proof.
  intros M. induction v as [s|z|s|s|x|l IH|l IH] using toml_ind'; intros prefix leading d d' D; cbn [traverse].
  1-5: split; [|exact D]; constructor; repeat split; exact M.
  - match goal with |- context [fst (let '(_, _) := ?F 0 l true d in _)] => set (go := F) end.
    match goal with |- context [fst (let '(_, _) := ?F 0 l true d' in _)] => set (go' := F) end.
    assert (K : forall i first d d', ad d d' ->
      als (fst (go i l first d)) (fst (go' i l first d')) /\ ad (snd (go i l first d)) (snd (go' i l first d'))).
    { clear d d' D. induction IH as [|v l I1 I2 IHl]; intros i first d d' D; cbn; [split; [constructor|exact D]|].
      destruct (I1 (prefix ++ [show_nat i]) first d d' D) as [J1 J2].
      destruct (traverse sep st (prefix ++ [show_nat i]) v first d) as [n d1], (traverse sep st' (prefix ++ [show_nat i]) v first d') as [n' d1']. cbn in J1, J2.
      destruct (IHl (S i) false _ _ (ad_var (qualified sep prefix (show_nat i)) _ _ _ _ J1 J2)) as [L1 L2].
      destruct (go (S i) l false _) as [ns d2], (go' (S i) l false _) as [ns' d2']. cbn in *. split; [constructor; assumption|exact L2]. }
    destruct (K 0 true d d' D) as [K1 K2]. destruct (go 0 l true d), (go' 0 l true d'). cbn in *.
    split; [constructor; assumption|exact K2].
  - match goal with |- context [fst (let '(_, _) := ?F l true d in _)] => set (go := F) end.
    match goal with |- context [fst (let '(_, _) := ?F l true d' in _)] => set (go' := F) end.
    assert (K : forall first d d', ad d d' ->
      als (fst (go l first d)) (fst (go' l first d')) /\ ad (snd (go l first d)) (snd (go' l first d'))).
    { clear d d' D. induction IH as [|[k v] l I1 I2 IHl]; intros first d d' D; cbn; [split; [constructor|exact D]|].
      destruct (I1 (prefix ++ [k]) false d d' D) as [J1 J2]. cbn [snd] in J1, J2.
      destruct (traverse sep st (prefix ++ [k]) v false d) as [n d1], (traverse sep st' (prefix ++ [k]) v false d') as [n' d1']. cbn in J1, J2.
      destruct (IHl false _ _ (ad_var (qualified sep prefix k) _ _ _ _ J1 J2)) as [L1 L2].
      destruct (go l false _) as [ns d2], (go' l false _) as [ns' d2']. cbn in *.
      split; [constructor; [constructor|]; assumption|exact L2]. }
    destruct (K true d d' D) as [K1 K2]. destruct (go l true d), (go' l true d'). cbn in *.
    split; [constructor; assumption|exact K2].
Qed.
Lemma toml_alike text sep st st' d d' : mv st st' -> ad d d' ->
  rel als (fst (expand_toml E text sep st d)) (fst (expand_toml E text sep st' d')) /\
  ad (snd (expand_toml E text sep st d)) (snd (expand_toml E text sep st' d')).
Proof.
  intros M D. unfold expand_toml. destruct (e_toml E text) as [t|]; [|split; [apply rel_err, M|exact D]].
  destruct (traverse_alike sep st st' (TomlTable t) M [] true d d' D) as [A B].
  destruct (traverse sep st [] (TomlTable t) true d), (traverse sep st' [] (TomlTable t) true d'). cbn in *.
  split; [apply rel_ok; repeat constructor; exact A|exact B].
Qed.

(** ** Sorting *)

Lemma forallb_alike {X Y} (Q : X -> Y -> Prop) f f' l l' : (forall x y, Q x y -> f x = f' y) -> Forall2 Q l l' ->
  forallb f l = forallb f' l'.
Proof. intros F H. induction H as [|x y l l' A B IH]; cbn; [reflexivity|]. rewrite (F _ _ A), IH. reflexivity. Qed.
Section Sort.
Context {X : Type} (Q : X -> X -> Prop) (cmp : X -> X -> comparison).
Hypothesis C : forall x x' y y', Q x x' -> Q y y' -> cmp x y = cmp x' y'.
Lemma order_alike l l' : Forall2 Q l l' -> is_order cmp l = is_order cmp l'.
Proof.
  intros H. unfold is_order. apply (forallb_alike Q); [|exact H]. intros x x' A.
  apply (forallb_alike Q); [|exact H]. intros y y' B. rewrite (C _ _ _ _ A B), (C _ _ _ _ B A). f_equal.
  apply (forallb_alike Q); [|exact H]. intros z z' D. rewrite (C _ _ _ _ B D), (C _ _ _ _ A D). reflexivity.
Qed.
Lemma insert_sorted_alike x x' l l' : Q x x' -> Forall2 Q l l' -> Forall2 Q (sort_insert cmp x l) (sort_insert cmp x' l').
Proof.
  intros A H. induction H as [|y y' l l' B H IH]; cbn; [repeat constructor; exact A|].
  rewrite (C _ _ _ _ A B). destruct (cmp x' y'); repeat constructor; auto.
Qed.
Lemma arrange_alike ks : forall l l', Forall2 Q l l' -> Forall2 Q (arrange ks l) (arrange ks l').
Proof.
  induction ks as [|k ks IH]; intros l l' H; cbn [arrange]; [exact H|]. rewrite <- (fa2_length _ _ _ H).
  assert (G : Forall2 Q (skipn (k mod length l) l) (skipn (k mod length l) l') /\ Forall2 Q (firstn (k mod length l) l) (firstn (k mod length l) l')).
  { generalize (k mod length l). clear -H. induction H; intros [|i]; cbn; auto. destruct (IHForall2 i). auto. }
  destruct G as [G1 G2]. destruct G1; [constructor|]. constructor; [assumption|]. apply IH, Forall2_app; assumption.
Qed.
Lemma sort_alike l l' : Forall2 Q l l' -> rel (Forall2 Q) (sort_by E cmp l) (sort_by E cmp l').
Proof.
  intros H. unfold sort_by. rewrite <- (order_alike _ _ H). destruct (is_order cmp l).
  - apply rel_ok. unfold insertion_sort. induction H; cbn; [constructor|]. apply insert_sorted_alike; assumption.
  - assert (M : map (fun x => map (cmp x) l) l = map (fun x => map (cmp x) l') l').
    { apply (fa2_map_eq Q); [|exact H]. intros x x' A. apply (fa2_map_eq Q); [|exact H]. intros y y' B. apply C; assumption. }
    rewrite <- M. destruct (e_unsorted E _); [apply rel_ok, arrange_alike, H|apply rel_panic].
Qed.
End Sort.

(** ** Other pieces *)

Lemma create_alike name ps ps' body body' s s' : als ps ps' -> als body body' -> sa s s' ->
  ss (create_macro name ps body s) (create_macro name ps' body' s').
Proof.
  intros P B S. unfold create_macro.
  assert (F : forall f, (forall n n', al n n' -> f n = f n') -> als (List.filter f ps) (List.filter f ps')).
  { intros f F. clear -P F. induction P as [|n n' l l' A P IH]; cbn; [constructor|]. rewrite (F _ _ A). destruct (f n'); auto. }
  assert (F1 : als (List.filter amp ps) (List.filter amp ps')).
  { apply F. intros n n' A. unfold amp. apply al_symbol in A. destruct (symbol n), (symbol n'); try contradiction; [|reflexivity]. destruct A as [-> _]. reflexivity. }
  assert (F2 : als (List.filter ampamp ps) (List.filter ampamp ps')).
  { apply F. intros n n' A. unfold ampamp. apply al_symbol in A. destruct (symbol n), (symbol n'); try contradiction; [|reflexivity]. destruct A as [-> _]. reflexivity. }
  assert (G : ss match List.filter ampamp ps with _ :: excess :: _ => error EBindMultiRest (node_site excess) | _ => Ok (set_defs (put name (Macro ps body) (x_defs s)) s) end
     match List.filter ampamp ps' with _ :: excess :: _ => error EBindMultiRest (node_site excess) | _ => Ok (set_defs (put name (Macro ps' body') (x_defs s')) s') end).
  { assert (K : ss (Ok (set_defs (put name (Macro ps body) (x_defs s)) s)) (Ok (set_defs (put name (Macro ps' body') (x_defs s')) s'))).
    { apply rel_ok, sa_defs; [|exact S]. apply ad_put; [split; assumption|apply S]. }
    destruct F2 as [|? ? ? ? ? F2]; [exact K|]. destruct F2; [exact K|]. apply rel_err, al_site. assumption. }
  destruct F1 as [|? ? ? ? ? F1]; [exact G|]. destruct F1; [exact G|]. apply rel_err, al_site. assumption.
Qed.

Lemma atoms_alike ns ns' : als ns ns' ->
  match atoms ns, atoms ns' with inl l, inl l' => Forall2 ala l l' | inr n, inr n' => al n n' | _, _ => False end.
Proof.
  intros H. induction H as [|n n' ns ns' A H IH]; cbn [atoms]; [constructor|].
  assert (B := al_atomic _ _ A). destruct (atomic n), (atomic n'); try contradiction; [|exact A].
  destruct (atoms ns), (atoms ns'); try contradiction; [constructor; assumption|exact IH].
Qed.
Lemma format_alike ns ns' : als ns ns' ->
  match format_args ns, format_args ns' with inl l, inl l' => l = l' | inr n, inr n' => al n n' | _, _ => False end.
Proof.
  intros H. induction H as [|n n' ns ns' A H IH]; cbn [format_args]; [reflexivity|].
  assert (X : exists name v v', match n with Attr k v _ _ => (Some k, v) | _ => (None, n) end = (name, v) /\
    match n' with Attr k v _ _ => (Some k, v) | _ => (None, n') end = (name, v') /\ al v v').
  { destruct A; do 3 eexists; (split; [reflexivity|]; split; [reflexivity|]); auto using al_sym, al_num, al_str, al_raw. constructor; assumption. }
  destruct X as (name & v & v' & -> & -> & V). assert (B := al_atomic _ _ V).
  destruct (atomic v), (atomic v'); try contradiction; [|exact V]. destruct B as [-> _].
  destruct (format_args ns), (format_args ns'); try contradiction; [subst; reflexivity|exact IH].
Qed.
Lemma options_alike ns ns' : als ns ns' -> forall sep,
  rel (fun x y => fst x = fst y /\ als (snd x) (snd y)) (namespace_options sep ns) (namespace_options sep ns').
Proof.
  intros H. induction H as [|n n' ns ns' A H IH]; intros sep; cbn [namespace_options]; [apply rel_ok; split; constructor|].
  destruct A; try (apply rel_ok; split; [reflexivity|]; constructor; [constructor; assumption|assumption]).
  destruct (beq k (b "separator")); [|apply rel_err; assumption].
  match goal with V : alike R ?x ?y |- _ => assert (B := al_atomic _ _ V); assert (SV := al_site _ _ V); destruct (atomic x), (atomic y) end; try contradiction;
    [destruct B as [-> _]; apply IH|apply rel_err, SV].
Qed.
Lemma get_item_alike item n n' : al n n' -> rel al (get_item item n) (get_item item n').
Proof.
  intros A. unfold get_item. assert (B := al_list_of _ _ A). assert (ST := al_site _ _ A).
  destruct (list_of n) as [l|], (list_of n') as [l'|]; try contradiction; [|apply rel_err, ST].
  cbn in B. rewrite <- (fa2_length _ _ _ B).
  assert (I : orel al match parse_usize item with Some i => if (i <? N.of_nat (length l))%N then nth_error l (N.to_nat i) else None | None => None end
     match parse_usize item with Some i => if (i <? N.of_nat (length l))%N then nth_error l' (N.to_nat i) else None | None => None end).
  { destruct (parse_usize item) as [i|]; [|exact I]. destruct (i <? _)%N; [apply fa2_nth, B|exact I]. }
  destruct (match parse_usize item with Some i => if (i <? N.of_nat (length l))%N then nth_error l (N.to_nat i) else None | None => None end),
    (match parse_usize item with Some i => if (i <? N.of_nat (length l))%N then nth_error l' (N.to_nat i) else None | None => None end); try contradiction; [apply rel_ok, I|].
  assert (F : orel al (find_attr item l) (find_attr item l')).
  { unfold find_attr. clear -B. induction B as [|x y l l' A B IH]; cbn; [exact I|]. destruct A; try exact IH. destruct (beq item k); [assumption|exact IH]. }
  destruct (find_attr item l), (find_attr item l'); try contradiction; [apply rel_ok, F|apply rel_err, ST].
Qed.
Lemma get_path_alike path : forall n n', al n n' -> rel al (get_path path n) (get_path path n').
Proof.
  induction path as [|i path IH]; intros n n' A; cbn [get_path]; [apply rel_ok, A|].
  eapply rel_bind; [apply get_item_alike, A|]. exact IH.
Qed.
Lemma timezone_alike tz tz' : orel ala tz tz' -> rel eq (timezone E tz) (timezone E tz').
Proof.
  intros A. unfold timezone. destruct tz as [a|], tz' as [a'|]; try contradiction; [|apply rel_ok; reflexivity].
  destruct A as [-> [_ ST]]. destruct (e_fixed E _); [|apply rel_err, ST].
  apply rel_same. intros k st Q. exfalso. revert Q. unfold checked.
  repeat (destruct (fits_i64 _); cbn; try discriminate).
Qed.
Lemma copied_alike prefix keys keys' from from' to to' : Permutation keys (scope_names from) -> Permutation keys' (scope_names from') ->
  ad from from' -> ad to to' -> ad (copy_prefixed prefix keys from to) (copy_prefixed prefix keys' from' to').
Proof.
  intros P P' F T k. destruct (copy_imported prefix _ _ to P) as [A B], (copy_imported prefix _ _ to' P') as [A' B'].
  assert (X : (exists j, k = prefix ++ j /\ get j from <> None) \/ forall j, k = prefix ++ j -> get j from = None).
  { destruct (list_eq_dec ascii_dec (firstn (length prefix) k) prefix) as [Q|Q].
    - destruct (get (skipn (length prefix) k) from) eqn:G.
      + left. exists (skipn (length prefix) k). rewrite G. split; [|discriminate]. rewrite <- Q at 1. symmetry. apply firstn_skipn.
      + right. intros j ->. rewrite skipn_app, skipn_all, Nat.sub_diag in G. exact G.
    - right. intros j ->. exfalso. apply Q. rewrite firstn_app, firstn_all, Nat.sub_diag. apply app_nil_r. }
  destruct X as [(j & -> & G)|X].
  - specialize (F j). destruct (get j from) as [m|] eqn:Q; [|contradiction]. destruct (get j from') as [m'|] eqn:Q'; [|contradiction].
    rewrite (A _ _ Q), (A' _ _ Q'). exact F.
  - rewrite (B _ X), B'; [apply T|]. intros j J. specialize (F j). rewrite (X _ J) in F. destruct (get j from'); [contradiction|reflexivity].
Qed.

(** ** The builtins *)

Hypothesis ORDER : forall seed l, Permutation (e_order E seed l) l.
Hypothesis READS : reads_text E.

Section Builtins.
Variables ex ex' : node -> state -> out.
Variables inv inv' : bytes -> call -> list node -> state -> out.
Hypothesis EX : forall n n' s s', al n n' -> sa s s' -> os (ex n s) (ex' n' s').
Hypothesis INV : forall name c c' ps ps' s s', calls c c' -> als ps ps' -> sa s s' -> os (inv name c ps s) (inv' name c' ps' s').

Lemma exs_alike ns ns' : als ns ns' -> forall s s', sa s s' -> os (exs ex ns s) (exs ex' ns' s').
Proof.
  intros H. induction H as [|n n' ns ns' A H IH]; intros s s' S; cbn [exs]; [apply rel_ok; split; [constructor|exact S]|].
  eapply rel_bind; [apply EX; eassumption|]. intros [x s1] [x' s1'] [X S1]. cbn in X, S1.
  eapply rel_bind; [apply IH, S1|]. intros [y s2] [y' s2'] [Y S2]. cbn in Y, S2.
  apply rel_ok. split; [apply Forall2_app; assumption|exact S2].
Qed.
Lemma eager_alike rs c c' ps ps' s s' : plain_rules rs -> calls c c' -> als ps ps' -> sa s s' ->
  rel (fun x y => args_alike (fst (fst x)) (fst (fst y)) /\ als (snd (fst x)) (snd (fst y)) /\ sa (snd x) (snd y))
    (eager ex rs c ps s) (eager ex' rs c' ps' s').
Proof.
  intros PL C P S. unfold eager. eapply rel_bind; [apply exs_alike; eassumption|].
  intros [x s1] [x' s1'] [X S1]. cbn in X, S1.
  eapply rel_bind; [apply arguments_alike; [exact PL|apply C|exact X]|]. intros y y' Y.
  apply rel_ok. cbn. split; [exact Y|]. split; [exact X|]. apply sa_touch; assumption.
Qed.

Ltac plain_tac := split; cbn; repeat constructor.
Tactic Notation "eager_tac" ident(x) ident(P) ident(S) :=
  eapply rel_bind; [apply eager_alike; [plain_tac|eassumption..]|];
  let s1 := fresh "s" in let s1' := fresh "s" in let X := fresh "X" in
  intros [[x ?vs] s1] [[?x' ?vs'] s1'] [X [P S]]; cbn [fst snd] in X, P, S.
Tactic Notation "need_tac" ident(x) ident(A) :=
  eapply rel_bind; [apply need_alike; [first [exact as_atom_alike|exact as_node_alike|exact as_list_alike]|eassumption]|];
  intros x ?x' A.
Tactic Notation "want_tac" ident(x) ident(A) :=
  eapply rel_bind; [apply want_alike; [exact as_atom_alike|eassumption]|];
  intros x ?x' A.
Tactic Notation "rest_tac" ident(x) ident(A) :=
  eapply rel_bind; [apply rest_alike; [first [exact as_atom_alike|exact as_node_alike]|eassumption]|];
  intros x ?x' A.
Tactic Notation "exs_tac" ident(x) ident(X) ident(S) :=
  eapply rel_bind; [apply exs_alike; eassumption|];
  let s1 := fresh "s" in let s1' := fresh "s" in
  intros [x s1] [?x' s1'] [X S]; cbn [fst snd] in X, S.
Ltac touched := apply sa_touch; assumption.

Lemma val_or_alike d o o' : orel ala o o' -> val_or d o = val_or d o'.
Proof. destruct o, o'; cbn; try contradiction; [intros [H _]; exact H|reflexivity]. Qed.
Lemma vals_alike l l' : Forall2 ala l l' -> map a_val l = map a_val l'.
Proof. apply fa2_map_eq. intros x y [H _]. exact H. Qed.
Lemma optval_alike o o' : orel ala o o' -> option_map a_val o = option_map a_val o'.
Proof. destruct o, o'; cbn; try contradiction; [intros [-> _]; reflexivity|reflexivity]. Qed.

Section Called.
Variables c c' : call.
Variables ps ps' : list node.
Variables s s' : state.
Hypothesis C : calls c c'.
Hypothesis P : als ps ps'.
Hypothesis S : sa s s'.

Lemma define_alike : os (do_define ex c ps s) (do_define ex' c' ps' s').
Proof.
  unfold do_define. destruct P as [|h h' ns ns' H N]; [apply rel_err, call_site_alike, C|].
  assert (Y := al_symbol _ _ H). assert (L := al_list_of _ _ H). assert (ST := al_site _ _ H).
  destruct (symbol h) as [a|], (symbol h') as [a'|]; try contradiction.
  - exs_tac body B S1. destruct Y as [<- _]. eapply rel_bind; [apply create_alike; [constructor|exact B|exact S1]|].
    intros s2 s2' S2. apply rel_ok. split; [constructor|exact S2].
  - destruct (list_of h) as [l|], (list_of h') as [l'|]; try contradiction; [|apply rel_err, ST].
    destruct L as [|n n' l l' A L]; [apply rel_err, ST|].
    assert (Z := al_symbol _ _ A). destruct (symbol n), (symbol n'); try contradiction; [|apply rel_err, al_site, A].
    destruct Z as [<- _]. eapply rel_bind; [apply create_alike; [exact L|exact N|exact S]|].
    intros s2 s2' S2. apply rel_ok. split; [constructor|exact S2].
Qed.

Lemma ifdef_alike : os (do_ifdef ex c ps s) (do_ifdef ex' c' ps' s').
Proof.
  unfold do_ifdef.
  assert (K : forall cond cond' yes yes' no no', al cond cond' -> al yes yes' -> orel al no no' ->
    os match atomic cond with
    | None => error EIfdef (node_site cond)
    | Some a =>
        let* '(ns, s) :=
          if defined (a_val a) (x_defs s) then ex yes s
          else match no with Some alt => ex alt s | None => Ok ([], s) end in
        match ns with [] => Ok ([], s) | _ => Ok (set_first_ws (call_ws c) ns, touch c s) end
    end
    match atomic cond' with
    | None => error EIfdef (node_site cond')
    | Some a =>
        let* '(ns, s) :=
          if defined (a_val a) (x_defs s') then ex' yes' s'
          else match no' with Some alt => ex' alt s' | None => Ok ([], s') end in
        match ns with [] => Ok ([], s) | _ => Ok (set_first_ws (call_ws c') ns, touch c' s) end
    end).
  { intros cond cond' yes yes' no no' A Y N. assert (B := al_atomic _ _ A).
    destruct (atomic cond), (atomic cond'); try contradiction; [|apply rel_err, al_site, A].
    destruct B as [<- _]. assert (D : defined (a_val a) (x_defs s) = defined (a_val a) (x_defs s')).
    { destruct S as [D _]. specialize (D (a_val a)). unfold defined. destruct (get _ (x_defs s)), (get _ (x_defs s')); try contradiction; reflexivity. }
    rewrite <- D. eapply (rel_bind (fun x y => als (fst x) (fst y) /\ sa (snd x) (snd y))).
    { destruct (defined _ _); [apply EX; assumption|]. destruct no, no'; try contradiction; [apply EX; assumption|].
      apply rel_ok. split; [constructor|exact S]. }
    intros [x s1] [x' s1'] [X S1]. cbn in X, S1. rewrite (call_ws_alike _ _ C).
    destruct X; apply rel_ok; [split; [constructor|exact S1]|].
    split; [apply als_first; constructor; assumption|touched]. }
  assert (ER : os (error EIfdef (call_site c)) (error EIfdef (call_site c'))) by (apply rel_err, call_site_alike, C).
  destruct P as [|p1 p1' q q' A1 [|p2 p2' q2 q2' A2 [|p3 p3' q3 q3' A3 [|p4 p4' q4 q4' A4 A5]]]]; try exact ER.
  - apply (K _ _ _ _ None None A1 A2 I).
  - apply (K _ _ _ _ (Some p3) (Some p3') A1 A2 A3).
Qed.

Lemma included_alike id text ns : id <> 0 -> utf8 text -> parse (e_unescape E) id text = Ok ns -> als ns ns.
Proof.
  intros I U Q. assert (H := parse_sites (e_unescape E) id text U). rewrite Q in H. clear Q.
  assert (K : forall n, Forall (fun st => s_src st = id) (node_sites n) -> al n n).
  { assert (M : forall st, s_src st = id -> mv st st).
    { intros st <-. unfold moved. apply Nat.eqb_neq in I. rewrite I. reflexivity. }
    intros n. induction n as [a|a|a|a|l st ew es w IH|k v st w IH] using node_ind'; cbn; intros F;
      apply Forall_cons_iff in F as [F1 F2].
    1-4: constructor; repeat split; auto.
    - apply Forall_cons_iff in F2 as [F2 F3]. constructor; auto. clear -IH F3. induction IH as [|x l X IH IHl]; [constructor|].
      cbn in F3. apply Forall_app in F3 as [? ?]. constructor; auto.
    - constructor; auto. }
  induction ns as [|n ns IH]; [constructor|]. cbn in H. apply Forall_app in H as [H1 H2].
  constructor; [|apply IH, H2]. apply K. eapply Forall_impl; [|exact H1]. intros st [_ X]. exact X.
Qed.
Lemma search_read sex dirs path p text : search_file E sex dirs path = Some (p, text) -> exists q, e_read E q = Some text.
Proof.
  induction dirs as [|d dirs IH]; cbn; [discriminate|].
  destruct (e_read E (path_join d path)) eqn:Q; [intros [= <- <-]; eauto|].
  destruct sex; [|exact IH]. destruct (with_sex _) as [q|]; [|exact IH].
  destruct (e_read E q) eqn:Q2; [intros [= <- <-]; eauto|exact IH].
Qed.

Lemma include_alike : os (do_include E ex c ps s) (do_include E ex' c' ps' s').
Proof.
  unfold do_include. exs_tac ns N S1.
  assert (ER : os (error EInclude (call_site c)) (error EInclude (call_site c'))) by (apply rel_err, call_site_alike, C).
  destruct N as [|n n' q q' A [|? ? ? ? ? ?]]; try exact ER.
  assert (B := al_atomic _ _ A). destruct (atomic n) as [a|], (atomic n') as [a'|]; try contradiction; [|apply rel_err, al_site, A].
  destruct B as [<- [_ SA]]. destruct (search_file E true (e_includes E) (a_val a)) as [[path text]|] eqn:F; [|apply rel_err, SA].
  apply search_read in F as [file RD]. apply READS in RD. cbn [add_source].
  assert (LN : length (g_sources (x_world s0)) = length (g_sources (x_world s1)) /\ length (g_sources (x_world s0)) <> 0).
  { destruct S1 as [_ [_ [_ [_ [_ [L [L2 _]]]]]]]. apply (f_equal (@length _)) in L. rewrite !map_length in L. lia. }
  destruct LN as [LN NZ]. rewrite <- LN.
  destruct (parse (e_unescape E) (length (g_sources (x_world s0))) text) as [t|e|p| |] eqn:PT; try exact ER;
    [|apply rel_panic|right; exact I|right; exact I].
  assert (TA := included_alike _ _ _ NZ RD PT).
  eapply rel_bind; [apply exs_alike; [exact TA|]|].
  { destruct S1 as [D [V [L1 [L2 [L3 [L4 [L5 [L6 L7]]]]]]]]. repeat split; cbn; try assumption; try congruence.
    - rewrite !map_app, L4. reflexivity.
    - rewrite app_length. lia. }
  intros [x s2] [x' s2'] [X S2]. cbn in X, S2. rewrite (call_ws_alike _ _ C).
  destruct X; apply rel_ok; [split; [constructor|exact S2]|].
  split; [apply als_first; constructor; assumption|touched].
Qed.
Lemma embed_alike : os (do_embed E ex c ps s) (do_embed E ex' c' ps' s').
Proof.
  unfold do_embed. exs_tac ns N S1.
  assert (ER : os (error EEmbed (call_site c)) (error EEmbed (call_site c'))) by (apply rel_err, call_site_alike, C).
  destruct N as [|n n' q q' A [|? ? ? ? ? ?]]; try exact ER.
  assert (B := al_atomic _ _ A). destruct (atomic n) as [a|], (atomic n') as [a'|]; try contradiction; [|apply rel_err, al_site, A].
  destruct B as [<- [_ SA]]. destruct (search_file E false (e_includes E) (a_val a)) as [[path text]|]; [|apply rel_err, SA].
  apply rel_ok. split; [repeat constructor; apply here_alike, C|touched].
Qed.
Lemma env_alike : os (do_env E ex c ps s) (do_env E ex' c' ps' s').
Proof.
  unfold do_env. exs_tac ns N S1.
  assert (ER : os (error EEnv (call_site c)) (error EEnv (call_site c'))) by (apply rel_err, call_site_alike, C).
  destruct N as [|n n' q q' A [|? ? ? ? ? ?]]; try exact ER.
  assert (B := al_atomic _ _ A). destruct (atomic n) as [a|], (atomic n') as [a'|]; try contradiction; [|apply rel_err, al_site, A].
  destruct B as [<- [WA SA]]. destruct (e_getenv E (a_val a)); [|apply rel_err, SA].
  apply rel_ok. split; [repeat constructor; assumption|exact S1].
Qed.

Lemma frontmatter_alike a a' sep t t' : ala a a' -> sa t t' ->
  rel (fun x y => rel eq (fst x) (fst y) /\ sa (snd x) (snd y)) (frontmatter E c a sep t) (frontmatter E c' a' sep t').
Proof.
  intros [VA [_ SA]] T. unfold frontmatter. rewrite <- VA.
  assert (ER : rel (fun x y => rel eq (fst x) (fst y) /\ sa (snd x) (snd y)) (Ok (error EMarkdown (a_site a) : res unit, t)) (Ok (error EMarkdown (a_site a'), t'))).
  { apply rel_ok. split; [apply rel_err, SA|exact T]. }
  assert (MAP : forall (r r' : res (list node)), rel als r r' -> rel eq (rmap (fun _ => tt) r) (rmap (fun _ => tt) r')).
  { intros r r' [->|H]; [left; unfold stop; destruct flag; reflexivity|]. right.
    destruct r as [|[]| | |], r' as [|[]| | |]; cbn; try contradiction; auto. }
  destruct (e_front E (a_val a)) as [[text|text|]|]; try exact ER.
  - eapply rel_bind; [apply yaml_alike; [apply call_site_alike, C|apply T]|].
    intros [r d] [r' d'] [X D]. cbn in X, D. apply rel_ok. split; [apply MAP, X|apply sa_defs; assumption].
  - destruct (toml_alike text sep _ _ _ _ (call_site_alike _ _ C) (proj1 T)) as [X D].
    destruct (expand_toml E text sep (call_site c) (x_defs t)), (expand_toml E text sep (call_site c') (x_defs t')). cbn in X, D.
    apply rel_ok. split; [apply MAP, X|apply sa_defs; assumption].
Qed.
Lemma markdown_alike : os (do_markdown E ex c ps s) (do_markdown E ex' c' ps' s').
Proof.
  unfold do_markdown. eager_tac x PS S1. need_tac contents A. want_tac only O. want_tac sep W.
  rewrite <- (optval_alike _ _ O), <- (val_or_alike _ _ _ W).
  assert (H : rel als match e_html E (a_val contents) with Some html => Ok [Raw (here c html)] | None => error EMarkdown (a_site contents) end
     match e_html E (a_val x'0) with Some html => Ok [Raw (here c' html)] | None => error EMarkdown (a_site x'0) end).
  { destruct A as [<- [_ SA]]. destruct (e_html E (a_val contents)); [|apply rel_err, SA]. apply rel_ok. repeat constructor; apply here_alike, C. }
  destruct (option_map a_val only) as [o|].
  - destruct (beq o (b "frontmatter")).
    + eapply rel_bind; [apply frontmatter_alike; eassumption|]. intros [r t] [r' t'] [FX FT]. cbn in FX, FT.
      eapply rel_bind; [exact FX|]. intros _ _ _. apply rel_ok. split; [constructor|touched].
    + destruct (beq o (b "content")); [|apply rel_panic]. eapply rel_bind; [exact H|]. intros ns ns' N. apply rel_ok. split; [exact N|touched].
  - eapply rel_bind; [apply frontmatter_alike; eassumption|]. intros [r t] [r' t'] [FX FT]. cbn in FX, FT.
    eapply rel_bind; [exact H|]. intros ns ns' N. apply rel_ok. split; [exact N|touched].
Qed.
Lemma do_yaml_alike : os (do_yaml E ex c ps s) (do_yaml E ex' c' ps' s').
Proof.
  unfold do_yaml. eager_tac x PS S1. need_tac text A. want_tac sep W. rewrite <- (val_or_alike _ _ _ W).
  destruct A as [<- _]. eapply rel_bind; [apply yaml_alike; [apply call_site_alike, C|apply S1]|].
  intros [r d] [r' d'] [Y D]. cbn in Y, D. eapply rel_bind; [exact Y|]. intros ns ns' N.
  apply rel_ok. split; [exact N|]. apply sa_touch; [exact C|]. apply sa_defs; assumption.
Qed.
Lemma do_toml_alike : os (do_toml E ex c ps s) (do_toml E ex' c' ps' s').
Proof.
  unfold do_toml. eager_tac x PS S1. need_tac text A. want_tac sep W. rewrite <- (val_or_alike _ _ _ W).
  destruct A as [<- _]. destruct (toml_alike (a_val text) (val_or (b "/") sep) _ _ _ _ (call_site_alike _ _ C) (proj1 S1)) as [Y D].
  destruct (expand_toml E _ _ (call_site c) _), (expand_toml E _ _ (call_site c') _). cbn in Y, D.
  eapply rel_bind; [exact Y|]. intros ns ns' N.
  apply rel_ok. split; [exact N|]. apply sa_touch; [exact C|]. apply sa_defs; assumption.
Qed.
Lemma do_get_alike : os (do_get ex c ps s) (do_get ex' c' ps' s').
Proof.
  unfold do_get. eager_tac x PS S1. need_tac path A. need_tac n N. want_tac sep W. rewrite <- (val_or_alike _ _ _ W).
  destruct A as [<- _]. eapply rel_bind; [apply get_path_alike, N|]. intros m m' M. apply rel_ok. split; [repeat constructor; exact M|exact S1].
Qed.
Lemma offset_site_alike tz tz' : orel ala tz tz' ->
  mv (match tz with Some a => a_site a | None => call_site c end) (match tz' with Some a => a_site a | None => call_site c' end).
Proof. destruct tz, tz'; cbn; try contradiction; [intros H; apply H|intros _; apply call_site_alike, C]. Qed.
Lemma do_date_alike : os (do_date E ex c ps s) (do_date E ex' c' ps' s').
Proof.
  unfold do_date. eager_tac x PS S1. need_tac fmt A. want_tac time T. want_tac tz W.
  eapply rel_bind; [apply timezone_alike, W|]. intros offset ? <-.
  eapply (rel_bind eq).
  { destruct time as [t|], x'1 as [t'|]; try contradiction; [|apply rel_ok; reflexivity]. destruct T as [<- [_ T]].
    destruct (parse_i64 (a_val t)); [|apply rel_err, T]. destruct (e_time_ok E z); [apply rel_ok; reflexivity|apply rel_err, T]. }
  intros u ? <-. destruct (east_ok offset); [|apply rel_err, offset_site_alike, W].
  destruct A as [<- _]. destruct (e_date E u offset (a_val fmt)); [|apply rel_panic].
  apply rel_ok. split; [repeat constructor; apply here_alike, C|touched].
Qed.
Lemma do_timestamp_alike : os (do_timestamp E ex c ps s) (do_timestamp E ex' c' ps' s').
Proof.
  unfold do_timestamp. eager_tac x PS S1. need_tac fmt A. need_tac date D. want_tac tz W.
  eapply rel_bind; [apply timezone_alike, W|]. intros offset ? <-.
  destruct (east_ok offset); [|apply rel_err, offset_site_alike, W].
  destruct A as [<- _], D as [<- _]. assert (K := call_site_alike _ _ C). eapply (rel_bind eq).
  { destruct (e_parse_date E (a_val fmt) (a_val date)); [apply rel_ok; reflexivity|].
    destruct (e_parse_naive E (a_val fmt) (a_val date)); [|apply rel_err, K].
    destruct (e_time_ok E _); [apply rel_ok; reflexivity|apply rel_err, K]. }
  intros t ? <-. apply rel_ok. split; [repeat constructor; apply here_alike, C|touched].
Qed.
Lemma do_log_alike : os (do_log ex c ps s) (do_log ex' c' ps' s').
Proof.
  unfold do_log. exs_tac ns N S1. apply atoms_alike in N.
  destruct (atoms ns), (atoms x'); try contradiction; [|apply rel_err, call_site_alike, C].
  rewrite <- (vals_alike _ _ N). apply rel_ok. split; [constructor|]. apply sa_log; [apply call_site_alike, C|touched].
Qed.
Lemma do_format_alike : os (do_format E ex c ps s) (do_format E ex' c' ps' s').
Proof.
  unfold do_format. exs_tac ns N S1. destruct N as [|n n' q q' A N]; [apply rel_err, call_site_alike, C|].
  assert (ST := al_site _ _ A). destruct A as [| |a a' [<- [_ SA]]| | |]; cbn [node_site] in ST; try (apply rel_err, ST).
  destruct (e_template E (a_val a)); [|apply rel_err, ST]. apply format_alike in N.
  destruct (format_args q), (format_args q'); try contradiction; [subst l0|apply rel_err, al_site, N].
  destruct (e_format E (a_val a) l); [|apply rel_err, ST]. apply rel_ok. split; [repeat constructor; apply here_alike, C|touched].
Qed.
Lemma do_namespace_alike : os (do_namespace E ex c ps s) (do_namespace E ex' c' ps' s').
Proof.
  unfold do_namespace. eapply rel_bind; [apply (in_frame_alike (exs ex ps) (exs ex' ps')); [apply exs_alike, P|exact S]|].
  intros [[ns d] s1] [[ns' d'] s1'] [N [D S1]]. cbn [fst snd] in N, D, S1.
  assert (ER : os (error ENamespace (call_site c)) (error ENamespace (call_site c'))) by (apply rel_err, call_site_alike, C).
  destruct N as [|n n' q q' A N]; [exact ER|]. apply al_atomic in A. destruct (atomic n), (atomic n'); try contradiction; [|exact ER].
  destruct A as [<- _]. eapply rel_bind; [apply options_alike, N|]. intros [sep body] [sep' body'] [Q B]. cbn in Q, B. subst sep'.
  apply rel_ok. split; [exact B|]. apply sa_new_maps, sa_defs; [|exact S1]. apply copied_alike; auto. apply S1.
Qed.
Lemma for_each_alike pat pat' items items' body body' : al pat pat' -> als items items' -> als body body' ->
  forall s s', sa s s' -> os (for_each E ex pat items body s) (for_each E ex' pat' items' body' s').
Proof.
  intros A I B. induction I as [|i i' items items' X I IH]; intros t t' T; cbn [for_each]; [apply rel_ok; split; [constructor|exact T]|].
  eapply rel_bind; [apply bind_node_alike; eassumption|]. intros t1 t1' T1. exs_tac xs XS T2.
  eapply rel_bind; [apply IH, T2|]. intros [ys t3] [ys' t3'] [Y T3]. cbn in Y, T3.
  apply rel_ok. split; [apply Forall2_app; assumption|exact T3].
Qed.
Lemma do_for_alike : os (do_for E ex c ps s) (do_for E ex' c' ps' s').
Proof.
  unfold do_for. eapply rel_bind; [apply arguments_alike; [plain_tac|apply C|exact P]|]. intros x x' X.
  assert (S1 : sa (touch c s) (touch c' s')) by touched.
  need_tac pat A. need_tac items I. rest_tac body B. exs_tac is IS S2.
  eapply rel_bind; [apply (in_frame_alike (for_each E ex pat is body)); [apply for_each_alike; eassumption|exact S2]|].
  intros [[ns d] t1] [[ns' d'] t1'] [N [_ S3]]. apply rel_ok. split; assumption.
Qed.
Lemma do_glob_alike : os (do_glob E ex c ps s) (do_glob E ex' c' ps' s').
Proof.
  unfold do_glob. eager_tac x PS S1. need_tac pattern A. want_tac type T. want_tac sort O. want_tac order W.
  rewrite <- (optval_alike _ _ T), <- (optval_alike _ _ O), <- (val_or_alike _ _ _ W).
  eapply (rel_bind eq).
  { apply rel_same. intros k st. destruct (option_map a_val type); [|discriminate]. repeat (destruct (beq _ _); try discriminate). }
  intros ty ? <-. eapply (rel_bind eq).
  { apply rel_same. intros k st. destruct (option_map a_val sort); [|discriminate]. repeat (destruct (beq _ _); try discriminate). }
  intros so ? <-. destruct A as [<- [_ SA]]. destruct (e_glob E (a_val pattern)) as [entries|]; [|apply rel_err, SA].
  eapply (rel_bind eq).
  { apply rel_same. intros k st Q. exfalso. revert Q. unfold glob_collect.
    assert (G : forall e, glob_entries ty entries <> Err e).
    { intros e. revert entries e. induction entries as [|[[q [m|]]|] rest IH]; intros e; cbn; try discriminate.
      destruct (glob_entries ty rest); cbn; try discriminate. intros [= <-]. apply (IH _ eq_refl). }
    destruct (glob_entries ty entries) eqn:Q; cbn; try discriminate. exfalso. apply (G _ eq_refl). }
  intros set ? <-. destruct set as [set|]; [|apply rel_err, SA]. apply rel_ok. split; [|exact S1]. cbn [fst]. apply als_first.
  generalize (if beq (val_or (b "ascending") order) (b "ascending") then set else rev set). intros fs. induction fs; cbn; constructor; auto.
  constructor. repeat split. exact SA.
Qed.
Lemma do_text_alike make k : (forall a a', ala a a' -> al (make a) (make a')) -> os (do_text ex make k c ps s) (do_text ex' make k c' ps' s').
Proof.
  intros MK. unfold do_text. exs_tac ns N S1. apply atoms_alike in N.
  destruct (atoms ns), (atoms x'); try contradiction; [|apply rel_err, al_site, N].
  replace (flat_map (fun a => a_ws a ++ a_val a) l0) with (flat_map (fun a => a_ws a ++ a_val a) l).
  - apply rel_ok. split; [repeat constructor; apply MK, here_alike, C|touched].
  - clear -N. induction N as [|x y l l' [A [B _]] N IH]; cbn; [reflexivity|]. rewrite A, B, IH. reflexivity.
Qed.
Lemma do_convert_alike make : (forall a a', ala a a' -> al (make a) (make a')) -> os (do_convert ex make c ps s) (do_convert ex' make c' ps' s').
Proof.
  intros MK. unfold do_convert. eager_tac x PS S1. rest_tac l L. apply rel_ok. split; [|exact S1].
  cbn. apply (fa2_map ala); assumption.
Qed.
Lemma with_ws_alike l l' m m' : als l l' -> als m m' -> als (with_ws_of l m) (with_ws_of l' m').
Proof.
  intros L M. unfold with_ws_of. eapply fa2_map; [|apply fa2_combine; eassumption].
  intros [x y] [x' y'] [A B]. cbn in *. rewrite (al_ws _ _ B). apply al_set_ws, A.
Qed.
Lemma do_reverse_alike : os (do_reverse ex c ps s) (do_reverse ex' c' ps' s').
Proof.
  unfold do_reverse. eager_tac x PS S1. need_tac l L.
  destruct PS as [|? ? ? ? []]; try apply rel_panic. apply rel_ok. split; [|exact S1]. cbn.
  repeat constructor; try assumption. apply with_ws_alike; [apply fa2_rev|]; assumption.
Qed.
Lemma sort_keys_alike name st st' ns ns' : mv st st' -> als ns ns' -> forall s s', sa s s' ->
  rel (fun x y => Forall2 pr (fst x) (fst y) /\ sa (snd x) (snd y)) (sort_keys inv name c st ns s) (sort_keys inv' name c' st' ns' s').
Proof.
  intros M H. induction H as [|n n' ns ns' A H IH]; intros t t' T; cbn [sort_keys]; [apply rel_ok; split; [constructor|exact T]|].
  eapply (rel_bind (fun x y => als (fst x) (fst y) /\ sa (snd x) (snd y))).
  { assert (V := INV name c c' [n] [n'] t t' C (Forall2_cons _ _ A (Forall2_nil _)) T). destruct V as [->|V].
    - left. unfold stop. destruct flag; reflexivity.
    - destruct (inv name c [n] t) as [|[]| | |], (inv' name c' [n'] t') as [|[]| | |]; try contradiction;
        [right; exact V|apply rel_err, M|right; exact V..]. }
  intros [key t1] [key' t1'] [K T1]. cbn in K, T1.
  destruct K as [|k k' q q' K [|? ? ? ? ? ?]]; try (apply rel_err, M).
  assert (B := al_atomic _ _ K). destruct (atomic k), (atomic k'); try contradiction; [|apply rel_err, al_site, K].
  eapply rel_bind; [apply IH, T1|]. intros [items t2] [items' t2'] [I T2]. cbn in I, T2. apply rel_ok.
  split; [|exact T2]. constructor; [split; [apply B|exact A]|exact I].
Qed.
Lemma do_sort_alike : os (do_sort E ex inv c ps s) (do_sort E ex' inv' c' ps' s').
Proof.
  unfold do_sort. eager_tac x PS S1. need_tac n N. want_tac order W. want_tac key K.
  rewrite <- (val_or_alike _ _ _ W), <- (val_or_alike _ _ _ K). assert (KS := offset_site_alike _ _ K).
  assert (ST := al_site _ _ N). destruct N as [| | | |l l' st st' ew es es' w L M1 M2|]; try (apply rel_err, ST).
  eapply rel_bind; [apply sort_keys_alike; [exact KS|exact L|exact S1]|]. intros [items t2] [items' t2'] [I T2]. cbn in I, T2.
  eapply rel_bind.
  { eapply (sort_alike pr (fun x y => if beq (val_or (b "ascending") order) (b "ascending") then key_cmp E (fst x) (fst y) else key_cmp E (fst y) (fst x))); [|exact I].
    intros y1 y1' y2 y2' [Q1 _] [Q2 _]. rewrite Q1, Q2. reflexivity. }
  intros l1 l1' L1. apply rel_ok. split; [|touched]. rewrite (call_ws_alike _ _ C). repeat constructor; try assumption.
  apply with_ws_alike; [|exact L]. eapply fa2_map; [|exact L1]. intros y y' [_ Y]. exact Y.
Qed.
Lemma do_join_alike : os (do_join ex c ps s) (do_join ex' c' ps' s').
Proof.
  unfold do_join. eager_tac x PS S1. need_tac sep A. want_tac trailing W. rest_tac l L.
  rewrite <- (val_or_alike _ _ _ W), <- (vals_alike _ _ L). destruct A as [<- _].
  apply rel_ok. split; [repeat constructor; apply here_alike, C|exact S1].
Qed.
Lemma do_concat_alike : os (do_concat ex c ps s) (do_concat ex' c' ps' s').
Proof.
  unfold do_concat. eager_tac x PS S1. rest_tac l L.
  assert (Q : fold_left (fun acc a => acc ++ a_val a) l [] = fold_left (fun acc a => acc ++ a_val a) x'0 []).
  { generalize (@nil ascii). induction L as [|? ? ? ? [A _] L IH]; intros z; cbn; [reflexivity|]. rewrite A. apply IH. }
  rewrite <- Q. apply rel_ok. split; [repeat constructor; apply here_alike, C|exact S1].
Qed.
Lemma map_each_alike drop name ns ns' : als ns ns' -> forall s s', sa s s' -> os (map_each inv drop name c ns s) (map_each inv' drop name c' ns' s').
Proof.
  intros H. induction H as [|n n' ns ns' A H IH]; intros t t' T; cbn [map_each]; [apply rel_ok; split; [constructor|exact T]|].
  eapply rel_bind; [apply INV; [exact C|repeat constructor; exact A|exact T]|]. intros [xs t1] [xs' t1'] [X T1]. cbn in X, T1.
  eapply rel_bind; [apply IH, T1|]. intros [ys t2] [ys' t2'] [Y T2]. cbn in Y, T2. apply rel_ok. split; [|exact T2].
  apply Forall2_app; [|exact Y]. destruct X as [|x x' q q' X [|? ? ? ? ? ?]]; [constructor| |constructor; [assumption|constructor; assumption]].
  rewrite <- (al_null _ _ X). destruct (drop && null x); [constructor|]. repeat constructor. exact X.
Qed.
Lemma do_map_alike drop : os (do_map ex inv drop c ps s) (do_map ex' inv' drop c' ps' s').
Proof. unfold do_map. eager_tac x PS S1. need_tac f A. rest_tac l L. destruct A as [<- _]. apply map_each_alike; assumption. Qed.
Lemma do_apply_alike : os (do_apply ex inv c ps s) (do_apply ex' inv' c' ps' s').
Proof. unfold do_apply. eager_tac x PS S1. need_tac f A. rest_tac l L. destruct A as [<- _]. apply INV; assumption. Qed.
Lemma do_splat_alike : os (do_splat ex c ps s) (do_splat ex' c' ps' s').
Proof.
  unfold do_splat. exs_tac ns N S1. apply rel_ok. split; [|exact S1]. eapply fa2_flat; [|exact N].
  intros n n' []; cbn; try (constructor; [constructor; assumption|constructor]). apply als_first. assumption.
Qed.
Lemma do_list_alike : os (do_list ex c ps s) (do_list ex' c' ps' s').
Proof.
  unfold do_list. exs_tac ns N S1. assert (CC := C). destruct CC as [A _]. destruct A; try apply rel_panic.
  apply rel_ok. split; [repeat constructor; assumption|touched].
Qed.
Lemma do_strip_alike : os (do_strip ex c ps s) (do_strip ex' c' ps' s').
Proof. unfold do_strip. exs_tac ns N S1. apply rel_ok. split; [apply als_first, N|exact S1]. Qed.
Lemma do_lambda_alike : s_src (call_site c) <> 0 -> os (do_lambda E c ps s) (do_lambda E c' ps' s').
Proof.
  intros NZ. unfold do_lambda. eapply rel_bind; [apply arguments_alike; [plain_tac|apply C|exact P]|]. intros x x' X.
  need_tac head A. rest_tac body B. eapply (rel_bind als).
  { assert (L := al_list_of _ _ A). assert (Y := al_symbol _ _ A).
    destruct (list_of head), (list_of x'0); try contradiction; [apply rel_ok, L|].
    destruct (symbol head), (symbol x'0); try contradiction; [apply rel_ok; repeat constructor; exact A|apply rel_err, al_site, A]. }
  intros params params' PR.
  assert (Q : uuid E s (call_site c) = uuid E s' (call_site c')).
  { assert (M := call_site_alike _ _ C). unfold moved in M. apply Nat.eqb_neq in NZ. rewrite NZ in M. rewrite M.
    unfold uuid. replace (fst (nth (s_src (call_site c)) (g_sources (x_world s')) ([], []))) with (fst (nth (s_src (call_site c)) (g_sources (x_world s)) ([], []))); [reflexivity|].
    destruct S as [_ [_ [_ [_ [_ [L _]]]]]].
    rewrite <- !(map_nth fst), L. reflexivity. }
  rewrite <- Q. eapply rel_bind; [apply create_alike; [exact PR|exact B|touched]|]. intros s2 s2' S2.
  apply rel_ok. split; [repeat constructor; apply here_alike, C|exact S2].
Qed.
Lemma do_match_clauses v v' cs cs' : al v v' -> als cs cs' -> forall s s', sa s s' ->
  os (match_clauses E ex v cs s) (match_clauses E ex' v' cs' s').
Proof.
  intros V H. induction H as [|n n' cs cs' A H IH]; intros t t' T; cbn [match_clauses]; [apply rel_ok; split; [constructor|exact T]|].
  assert (L := al_list_of _ _ A). assert (ST := al_site _ _ A).
  destruct (list_of n), (list_of n'); try contradiction; [|apply rel_err, ST].
  destruct L as [|p p' body body' PA BA]; [apply rel_err, ST|].
  eapply rel_bind; [apply EX; eassumption|]. intros [x t1] [x' t1'] [X T1]. cbn in X, T1.
  destruct X as [|q q' l l' Q [|? ? ? ? ? ?]]; try (apply rel_err, al_site, PA).
  assert (T2 : sa (State (x_defs t1) (vec_clone (x_vec t1)) (x_world t1)) (State (x_defs t1') (vec_clone (x_vec t1')) (x_world t1'))).
  { destruct T1 as [D [W X]]. split; [exact D|]. split; [cbn; rewrite W; reflexivity|exact X]. }
  assert (B := bind_node_alike _ _ Q _ _ _ _ V T2).
  assert (F : os (let* '(ns, _, s0) := in_frame (fun s0 => let* s1 := bind_node E q v s0 in exs ex body s1) t1 in Ok (ns, s0))
    (let* '(ns, _, s0) := in_frame (fun s0 => let* s1 := bind_node E q' v' s0 in exs ex' body' s1) t1' in Ok (ns, s0))).
  { eapply rel_bind; [apply in_frame_alike; [|exact T1]|].
    - intros u u' U. eapply rel_bind; [apply bind_node_alike; eassumption|]. intros u1 u1' U1. apply exs_alike; assumption.
    - intros [[ns d] s1] [[ns' d'] s1'] [N [_ S3]]. apply rel_ok. split; assumption. }
  destruct B as [B|B].
  - left. unfold in_frame. rewrite B. unfold stop. destruct flag; reflexivity.
  - destruct (bind_node E q v _) as [|[]| | |], (bind_node E q' v' _) as [|[]| | |]; try contradiction; try exact F. apply IH, T1.
Qed.
Lemma do_match_alike : os (do_match E ex c ps s) (do_match E ex' c' ps' s').
Proof.
  unfold do_match. destruct P as [|e e' cs cs' A CS]; [apply rel_err, call_site_alike, C|].
  eapply rel_bind; [apply EX; eassumption|]. intros [x t1] [x' t1'] [X T1]. cbn in X, T1.
  destruct X as [|q q' l l' Q [|? ? ? ? ? ?]]; try (apply rel_err, al_site, A). apply do_match_clauses; assumption.
Qed.
Lemma call_macro_alike name : os (call_macro E ex name c ps s) (call_macro E ex' name c' ps' s').
Proof.
  unfold call_macro. exs_tac vs V S1. destruct S1 as [D S1]. assert (K := D name).
  destruct (get name (x_defs s0)) as [m|], (get name (x_defs s1)) as [m'|]; try contradiction; [|apply rel_err, call_site_alike, C].
  destruct K as [K1 K2]. unfold apply_macro. eapply rel_bind; [apply in_frame_alike; [|split; eassumption]|].
  - intros u u' U. eapply rel_bind; [apply bind_list_alike; [apply call_site_alike, C|apply bind_pats_alike, K1|exact V|exact U]|].
    intros u1 u1' U1. apply exs_alike; assumption.
  - intros [[ns d] u1] [[ns' d'] u1'] [N [_ S3]]. apply rel_ok. split; assumption.
Qed.
Lemma invoke_alike name : (beq name (b "lambda") && (s_src (call_site c) =? 0) = false) ->
  os (invoke E ex inv name c ps s) (invoke E ex' inv' name c' ps' s').
Proof.
  intros NL. unfold invoke. destruct (find_builtin name) as [m|] eqn:F; [|apply call_macro_alike].
  destruct m; cbn [run_builtin].
  - apply define_alike.
  - apply do_match_alike.
  - apply ifdef_alike.
  - apply exs_alike; assumption.
  - apply do_get_alike.
  - apply do_text_alike. intros; constructor; assumption.
  - apply do_text_alike. intros; constructor; assumption.
  - apply do_convert_alike. intros; constructor; assumption.
  - apply do_convert_alike. intros; constructor; assumption.
  - apply include_alike.
  - apply embed_alike.
  - apply do_namespace_alike.
  - apply markdown_alike.
  - apply do_yaml_alike.
  - apply do_toml_alike.
  - apply do_glob_alike.
  - apply do_for_alike.
  - apply do_sort_alike.
  - apply do_reverse_alike.
  - apply do_date_alike.
  - apply do_timestamp_alike.
  - apply do_join_alike.
  - apply do_concat_alike.
  - apply do_map_alike.
  - apply do_map_alike.
  - apply do_splat_alike.
  - apply do_list_alike.
  - apply do_strip_alike.
  - apply do_apply_alike.
  - apply do_lambda_alike. intros Z. rewrite Z in NL.
    assert (Q : beq name (b "lambda") = true); [|rewrite Q in NL; discriminate].
    clear -F. unfold find_builtin, builtins in F. cbn [assoc] in F.
    repeat match type of F with (if beq name ?k then _ else _) = _ => destruct (beq name k) eqn:?; [try discriminate F|] end; try discriminate F; try assumption; try reflexivity.
  - apply do_log_alike.
  - apply do_format_alike.
  - apply env_alike.
Qed.
End Called.

Lemma trim_alike ps ps' : als ps ps' -> als (trim_first ps) (trim_first ps').
Proof.
  intros []; cbn; [constructor|]. constructor; [|assumption]. rewrite <- (al_ws _ _ H).
  destruct (has LF _); [assumption|apply al_set_ws; assumption].
Qed.
Lemma expand_one_alike n n' s s' : al n n' -> sa s s' -> os (expand_one ex inv n s) (expand_one ex' inv' n' s').
Proof.
  intros A S. assert (SAME : os (Ok ([n], s)) (Ok ([n'], s'))) by (apply rel_ok; split; [repeat constructor; exact A|exact S]).
  assert (AA := A).
  destruct A as [a a' [Q [W SA]]|a a' Q|a a' Q|a a' Q|ns ns' st st' ew es es' w N M1 M2|k v v' st st' w V M]; cbn [expand_one]; try exact SAME.
  - rewrite <- Q. destruct (starts_with (b "%") (a_val a)); [|exact SAME].
    assert (D := proj1 S (skipn 1 (a_val a))).
    destruct (get _ (x_defs s)) as [m|], (get _ (x_defs s')) as [m'|]; try contradiction; [|apply rel_err, SA].
    destruct D as [D1 D2]. destruct D1; [|apply rel_err, SA]. exs_tac ns N S1. apply rel_ok. rewrite <- W. split; [apply als_first, N|exact S1].
  - destruct N as [|h h' t t' H T]; [exact SAME|].
    assert (PL : forall s s', sa s s' -> os (let* '(ns, s) := exs ex (h :: t) s in Ok ([Lst ns st ew es w], s)) (let* '(ns, s) := exs ex' (h' :: t') s' in Ok ([Lst ns st' ew es' w], s))).
    { intros u u' U. eapply rel_bind; [apply exs_alike; [constructor; eassumption|exact U]|]. intros [ns u1] [ns' u1'] [N U1]. cbn in N, U1.
      apply rel_ok. split; [repeat constructor; assumption|exact U1]. }
    assert (Y := al_symbol _ _ H). destruct (symbol h) as [a|], (symbol h') as [a'|]; try contradiction; [|apply PL, S].
    destruct (sa_register _ _ _ _ AA S) as [R1 R2]. destruct (register (Lst (h :: t) st ew es w) s), (register (Lst (h' :: t') st' ew es' w) s'). cbn in R1, R2.
    destruct Y as [<- _]. destruct (starts_with (b "%") (a_val a)); [|apply PL, R2].
    apply INV; [exact R1|apply trim_alike, T|exact R2].
  - eapply rel_bind; [apply EX; eassumption|]. intros [ns u1] [ns' u1'] [N U1]. cbn in N, U1.
    destruct N; [apply rel_panic|]. apply rel_ok. split; [repeat constructor; assumption|exact U1].
Qed.
End Builtins.

Inductive task_alike : task -> task -> Prop :=
| ta_node n n' : al n n' -> task_alike (TNode n) (TNode n')
| ta_invoke name c c' ps ps' : calls c c' -> als ps ps' -> task_alike (TInvoke name c ps) (TInvoke name c' ps').

Theorem run_alike fuel : forall t t' s s', task_alike t t' -> sa s s' -> os (run_with stop E fuel t s) (run E fuel t' s').
Proof.
  induction fuel as [|f IH]; intros t t' s s' T S; [right; exact I|]. cbn [run_with run].
  destruct T as [n n' A|name c c' ps ps' C P].
  - apply expand_one_alike; try assumption; intros; apply IH; try assumption; constructor; assumption.
  - destruct (beq name (b "lambda") && (s_src (call_site c) =? 0)) eqn:L; [left; reflexivity|].
    apply invoke_alike; try assumption; intros; apply IH; try assumption; constructor; assumption.
Qed.
Theorem trees_alike fuel ns ns' s s' : als ns ns' -> sa s s' ->
  os (exs (fun n s => run_with stop E fuel (TNode n) s) ns s) (expand_nodes E fuel ns' s').
Proof. intros A S. apply exs_alike; auto. intros n n' t t' N T. apply run_alike; [constructor; exact N|exact T]. Qed.
End Moved.

(** ** Programs that make no lambdas *)

Theorem expansion_alike R E fuel ns ns' s s' : (forall seed l, Permutation (e_order E seed l) l) -> reads_text E ->
  Forall2 (alike R) ns ns' -> sa R s s' -> lambda_free E fuel ns s ->
  alike_outcome R (expand_nodes E fuel ns s) (expand_nodes E fuel ns' s').
Proof.
  intros O T A S L.
  assert (H1 := trees_alike R true E O T fuel _ _ _ _ A S). assert (H2 := trees_alike R false E O T fuel _ _ _ _ A S).
  rewrite L in H1, H2. unfold rel, stop in *. destruct (expand_nodes E fuel ns s) as [[x t]|[k st]|p| |];
    destruct (expand_nodes E fuel ns' s') as [[x' t']|[k' st']|p'| |];
    destruct H1 as [H1|H1]; destruct H2 as [H2|H2]; try discriminate; try contradiction; try (constructor; fail).
  - destruct H1 as [X [D [_ [W _]]]]. constructor; assumption.
  - destruct H1 as [<- M]. constructor. exact M.
  - subst p'. constructor.
  - subst p'. constructor.
Qed.

Lemma initial_alike R path text text' : sa R (initial path text) (initial path text').
Proof. repeat split; cbn; try constructor. Qed.
