(** * Proofs: programs whose expansion ends *)

From Coq Require Import String List Ascii Bool Arith NArith ZArith Lia Permutation.
From Verif Require Import Text Utf8 Res Ast Args Env Scope State Bind Data Paths Sorting Parser Expander Numbers
  Spec_grammar Spec_args Spec_expand Spec_builtin Spec_bind Spec_control Spec_sort Spec_scope Spec_data Spec_world Spec_keep
  Spec_panic Spec_loop Spec_halt Proofs_text Proofs_ast Proofs_parser Proofs_run Proofs_eval Proofs_args Proofs_builtin Proofs_bind
  Proofs_sort Proofs_scope Proofs_data Proofs_world Proofs_import Proofs_keep Proofs_loop Proofs_extra.
From Verif Require Import Args Proofs_macros Expander.
From Verif Require Proofs_panic.
Import ListNotations.

(** ** Outcomes that are reached *)

Definition fine {A} (Q : A -> Prop) (r : res A) : Prop :=
  match r with Ok x => Q x | Err _ | Panic _ => True | Hang | OutOfFuel => False end.

Definition ends {A} (m : nat -> res A) (Q : A -> Prop) : Prop :=
  exists r f0, (forall f, le_out (m f) r) /\ (forall f, f0 <= f -> m f = r) /\ fine Q r.

Lemma ends_halts {A} (m : nat -> res A) Q : ends m Q -> halts m Q.
Proof.
  intros [r [f0 [_ [H F]]]]. exists r. split.
  - split; [|exists f0; exact H]. intros ->. exact F.
  - destruct r; try exact F; exact I.
Qed.
Lemma ends_const {A} (r : res A) Q : fine Q r -> ends (fun _ => r) Q.
Proof. intros F. exists r, 0. split; [intros; apply le_refl|]. split; [reflexivity|exact F]. Qed.
Lemma ends_impl {A} (m : nat -> res A) (P Q : A -> Prop) : ends m P -> (forall a, P a -> Q a) -> ends m Q.
Proof.
  intros [r [f0 [L [H F]]]] I0. exists r, f0. split; [exact L|]. split; [exact H|].
  destruct r; cbn in *; auto.
Qed.
Lemma fine_impl {A} (P Q : A -> Prop) r : fine P r -> (forall a, P a -> Q a) -> fine Q r.
Proof. destruct r; cbn; auto. Qed.
Lemma fine_bind {A B} (r : res A) (k : A -> res B) P Q :
  fine P r -> (forall a, P a -> fine Q (k a)) -> fine Q (bind r k).
Proof. destruct r; cbn; auto. Qed.
Lemma fine_tame {A} (r : res A) : tame r -> fine (fun _ => True) r.
Proof. intros [[x ->]|[e ->]]; exact I. Qed.

(** Applying a function to the outcome. *)
Lemma ends_map {A B} (m : nat -> res A) (g : res A -> res B) P Q :
  ends m P -> g OutOfFuel = OutOfFuel -> (forall r, fine P r -> fine Q (g r)) -> ends (fun f => g (m f)) Q.
Proof.
  intros [r [f0 [L [H F]]]] O K. exists (g r), f0. split; [|split].
  - intros f. destruct (L f) as [-> | ->]; [rewrite O; left; reflexivity|apply le_refl].
  - intros f G. rewrite H by exact G. reflexivity.
  - apply K, F.
Qed.
Lemma ends_bind {A B} (m : nat -> res A) (k : nat -> A -> res B) P Q :
  ends m P -> (forall a, P a -> ends (fun f => k f a) Q) -> ends (fun f => bind (m f) (k f)) Q.
Proof.
  intros [r [f0 [L [H F]]]] K. destruct r as [a|e|p| |]; cbn in F; try contradiction.
  - destruct (K a F) as [r [f1 [L1 [H1 F1]]]]. exists r, (Nat.max f0 f1). split; [|split; [|exact F1]].
    + intros f. destruct (L f) as [-> | ->]; [left; reflexivity|]. cbn. apply L1.
    + intros f G. rewrite H by lia. cbn. apply H1. lia.
  - exists (Err e), f0. split; [|split; [|exact I]].
    + intros f. destruct (L f) as [-> | ->]; [left; reflexivity|apply le_refl].
    + intros f G. rewrite H by exact G. reflexivity.
  - exists (Panic p), f0. split; [|split; [|exact I]].
    + intros f. destruct (L f) as [-> | ->]; [left; reflexivity|apply le_refl].
    + intros f G. rewrite H by exact G. reflexivity.
Qed.
Lemma ends_then {A B} (m : nat -> res A) (k : A -> res B) P Q :
  ends m P -> (forall a, P a -> fine Q (k a)) -> ends (fun f => bind (m f) k) Q.
Proof. intros H K. apply (ends_bind m (fun _ => k) P); [exact H|]. intros a HA. apply ends_const, K, HA. Qed.
Lemma ends_after {A B} (r : res A) (k : nat -> A -> res B) P Q :
  fine P r -> (forall a, r = Ok a -> P a -> ends (fun f => k f a) Q) -> ends (fun f => bind r (k f)) Q.
Proof.
  destruct r as [a|e|p| |]; cbn; intros F K; try contradiction; [apply K; [reflexivity|exact F]|apply ends_const; exact I|apply ends_const; exact I].
Qed.
Lemma ends_ext {A} (m m' : nat -> res A) Q : (forall f, m f = m' f) -> ends m Q -> ends m' Q.
Proof.
  intros X [r [f0 [L [H F]]]]. exists r, f0. split; [intros f; rewrite <- X; apply L|].
  split; [intros f G; rewrite <- X; apply H, G|exact F].
Qed.
(** One more unit of budget. *)
Lemma ends_S {A} (m : nat -> res A) Q : m 0 = OutOfFuel -> ends (fun f => m (S f)) Q -> ends m Q.
Proof.
  intros Z [r [f0 [L [H F]]]]. exists r, (S f0). split; [|split; [|exact F]].
  - intros [|f]; [left; exact Z|apply L].
  - intros [|f] G; [lia|]. apply H. lia.
Qed.

Ltac first_ends :=
  match goal with |- ends (fun f => bind (@?m f) (@?k f)) _ => eapply (ends_bind m k) end.
Ltac first_fine :=
  match goal with |- ends (fun f => bind ?m (@?k f)) _ => eapply (ends_after m k) end.

(** ** Macro-free nodes *)

Lemma free_keyword k v st w : macro_free (Attr k v st w) <-> macro_free v.
Proof. reflexivity. Qed.
Lemma free_first w ns : Forall macro_free ns -> Forall macro_free (set_first_ws w ns).
Proof. intros [|n l H K]; constructor; [apply macro_free_ws, H|exact K]. Qed.
Lemma free_list_of n l : macro_free n -> list_of n = Some l -> Forall macro_free l.
Proof. destruct n; try discriminate. intros M H. inversion H; subst. apply macro_free_list in M. exact M. Qed.
Lemma free_with_ws ns ws : Forall macro_free ns -> Forall macro_free (with_ws_of ns ws).
Proof.
  intros H. revert ws. unfold with_ws_of. induction H as [|n ns M H IH]; intros [|w ws]; cbn; constructor;
    [apply macro_free_ws, M|apply IH].
Qed.
Lemma free_positionals vs n i : Forall macro_free vs -> nth_error (positionals vs) i = Some n -> macro_free n.
Proof.
  intros M H. apply nth_error_In in H. apply filter_In in H as [H _].
  rewrite Forall_forall in M. apply M, H.
Qed.
Lemma slots_in ps : forall i pos p, In (pos, p) (slots i ps) -> In p ps.
Proof.
  induction ps as [|q ps IH]; intros i pos p; cbn; [auto|].
  destruct q; cbn; intros [H|H]; try (inversion H; subst; left; reflexivity); right; eapply IH, H.
Qed.
Lemma surplus_in rs ps p : In p (surplus rs ps) -> In p ps.
Proof.
  unfold surplus. intros H. apply in_map_iff in H as [[pos q] [<- H]]. apply filter_In in H as [H _].
  eapply slots_in, H.
Qed.
Lemma free_surplus rs vs : Forall macro_free vs -> Forall macro_free (surplus rs vs).
Proof. rewrite !Forall_forall. intros H p I0. apply H. eapply surplus_in, I0. Qed.
Lemma free_splat n : macro_free n -> Forall macro_free (splat_node n).
Proof.
  destruct n; intros M; try (constructor; [exact M|constructor]). apply macro_free_list in M.
  cbn. apply free_first, M.
Qed.

Section Halt.
Variable E : env.
Hypothesis ORDER : forall seed l, Permutation (e_order E seed l) l.
Hypothesis DATES : plain_dates E.
Variable level : bytes -> nat.
Hypothesis FILES : layered_files level E.

Notation ex f := (fun n s => run E f (TNode n) s).
Notation inv f := (fun name c ps s => run E f (TInvoke name c ps) s).
Notation below := (below level).
Notation layered := (layered level).

Definition layered_defs (d : scope) : Prop := forall name m, get name d = Some m ->
  Forall macro_free (m_params m) /\ Forall (below (level name)) (m_body m).
Definition good (p : list node * state) : Prop := Forall macro_free (fst p) /\ layered (snd p).

Lemma layered_same s s' : x_defs s' = x_defs s -> layered s -> layered s'.
Proof. unfold layered, Spec_halt.layered. intros -> H. exact H. Qed.
Lemma layered_touch c s : layered s -> layered (touch c s).
Proof. apply layered_same. unfold touch. destruct (_ =? _); reflexivity. Qed.
Lemma defs_put k m d : Forall macro_free (m_params m) -> Forall (below (level k)) (m_body m) ->
  layered_defs d -> layered_defs (put k m d).
Proof.
  intros P Q D name m' G. destruct (beq name k) eqn:J.
  - apply beq_eq in J. subst. rewrite get_put_same in G. inversion G; subst. auto.
  - apply beq_neq in J. rewrite get_put_other in G by exact J. apply D, G.
Qed.
Lemma free_below r ns : Forall macro_free ns -> Forall (below r) ns.
Proof. apply Forall_impl. intros n. apply below_plain. Qed.
Lemma defs_variable k ns d : Forall macro_free ns -> layered_defs d -> layered_defs (put k (variable ns) d).
Proof. intros M. apply defs_put; [constructor|apply free_below, M]. Qed.

(** *** Binding *)
Definition free_named (l : list (bytes * node)) : Prop := Forall (fun x => macro_free (snd x)) l.
Definition free_progress (p : progress) : Prop :=
  Forall macro_free (b_rhs p) /\ free_named (b_rhs_named p) /\ free_named (b_lhs_named p).
Lemma named_insert_free k n l : macro_free n -> free_named l -> free_named (named_insert k n l).
Proof.
  intros G. induction 1 as [|[k' n'] l H HS IH]; cbn; [repeat constructor; exact G|].
  destruct (beq k k'); constructor; auto.
Qed.
Lemma named_remove_free k l : free_named l -> free_named (named_remove k l).
Proof. intros G. apply Forall_forall. intros x I0. apply filter_In in I0. exact (proj1 (Forall_forall _ _) G x (proj1 I0)). Qed.
Lemma next_positional_free rhs : Forall macro_free rhs -> forall named n rhs' named', free_named named ->
  next_positional rhs named = Some (n, rhs', named') -> macro_free n /\ Forall macro_free rhs' /\ free_named named'.
Proof.
  induction 1 as [|n rhs G GS IH]; intros named n0 rhs' named' GN; cbn; [discriminate|].
  destruct n; try (intros Q; inversion Q; subst; auto; fail).
  intros Q. eapply IH; [|exact Q]. apply named_insert_free; assumption.
Qed.
Lemma leftover_free rhs : Forall macro_free rhs -> forall named, free_named named ->
  Forall macro_free (fst (leftover rhs named)) /\ free_named (snd (leftover rhs named)).
Proof.
  induction 1 as [|n rhs G GS IH]; intros named GN; cbn; [auto|].
  destruct n; try (specialize (IH named GN); destruct (leftover rhs named); cbn [fst snd] in *; split;
    [constructor; [exact G|apply IH]|apply IH]).
  apply IH, named_insert_free; assumption.
Qed.
Lemma put_var_layered k ns s : layered s -> Forall macro_free ns -> layered (put_var k ns s).
Proof. intros G H. exact (defs_variable k ns (x_defs s) H G). Qed.
Lemma entries_free keys l : free_named l -> Forall macro_free (entries keys l).
Proof.
  intros G. apply Forall_forall. intros x I0. apply in_flat_map in I0 as [k [_ I0]].
  destruct (assoc k l) as [n|] eqn:A; [|contradiction]. destruct I0 as [<-|[]].
  exact (assoc_good macro_free _ _ _ G A).
Qed.
Lemma bind_named_layered keys lhs : forall rhs s, layered s -> free_named lhs -> free_named rhs ->
  layered (snd (bind_named keys lhs rhs s)) /\ free_named (fst (bind_named keys lhs rhs s)).
Proof.
  induction keys as [|k keys IH]; intros rhs s G L RH; cbn [bind_named]; [auto|].
  set (v := match assoc k rhs with Some (Attr _ v _ _) => Some v | _ => assoc k lhs end).
  set (s1 := match v with Some v => put_var k [v] s | None => s end). cbn zeta.
  assert (GV : forall n, v = Some n -> macro_free n).
  { intros n Q. unfold v in Q.
    assert (D : assoc k lhs = Some n -> macro_free n) by (apply assoc_good, L).
    destruct (assoc k rhs) as [m|] eqn:A; [|exact (D Q)].
    pose proof (assoc_good macro_free _ _ _ RH A) as M.
    destruct m; try exact (D Q). inversion Q; subst. exact M. }
  apply IH; [|exact L|apply named_remove_free, RH].
  unfold s1. destruct v as [n|]; [|exact G]. apply put_var_layered; [exact G|].
  constructor; [apply GV; reflexivity|constructor].
Qed.
Lemma bind_rest_layered seed p s : layered s -> free_progress p -> fine layered (bind_rest E seed p s).
Proof.
  intros G [P1 [P2 P3]]. unfold bind_rest.
  pose proof (leftover_free _ P1 _ P2) as [L1 L2].
  destruct (leftover (b_rhs p) (b_rhs_named p)) as [rest rhs] eqn:Q. cbn in L1, L2.
  apply (fine_bind _ _ layered).
  - destruct (b_rest p); [|destruct (rev rest) as [|n l] eqn:V]; cbn; [|exact G|exact I].
    apply put_var_layered; assumption.
  - intros s1 G1.
    pose proof (bind_named_layered (e_order E (S seed) (map fst (b_lhs_named p))) (b_lhs_named p) rhs s1 G1 P3 L2) as [A2 G2].
    destruct (bind_named _ _ _ _) as [rhs2 s2]. cbn in A2, G2.
    destruct (b_rest_kw p).
    + cbn. apply put_var_layered; [|apply entries_free, G2].
      match goal with |- context [if ?c then _ else _] => destruct c end; [|exact A2]. revert A2. apply layered_same. reflexivity.
    + destruct (entries _ _) as [|n l]; [exact A2|exact I].
Qed.
Definition binds_fine (bnd : node -> node -> state -> res state) (pat : node) : Prop :=
  forall val s, layered s -> macro_free pat -> macro_free val -> fine layered (bnd pat val s).
Lemma bind_positional_layered bnd st pats : Forall (binds_fine bnd) pats -> forall p s,
  layered s -> Forall macro_free pats -> free_progress p ->
  fine (fun '(p', s') => layered s' /\ free_progress p') (bind_positional bnd st pats p s).
Proof.
  induction 1 as [|n0 pats B BS IH]; intros p s G GP P; cbn [bind_positional]; [cbn; auto|].
  inversion GP as [|? ? G0 GP']; subst.
  assert (K : fine (fun '(p', s') => layered s' /\ free_progress p') (match is_rest_kw n0, is_rest n0 with
          | Some a, _ =>
              match b_rest_kw p with
              | Some _ => Err (EErr EBindMultiRest (node_site n0))
              | None => bind_positional bnd st pats
                          (Progress (b_rhs p) (b_rhs_named p) (b_lhs_named p)
                                    (b_rest p) (Some a)) s
              end
          | None, Some a =>
              match b_rest p with
              | Some _ => Err (EErr EBindMultiRest (node_site n0))
              | None => bind_positional bnd st pats
                          (Progress (b_rhs p) (b_rhs_named p) (b_lhs_named p)
                                    (Some a) (b_rest_kw p)) s
              end
          | None, None =>
              match next_positional (b_rhs p) (b_rhs_named p) with
              | None => Err (EErr EBindTooFew st)
              | Some (n1, rhs, named) =>
                  let* s := bnd n0 n1 s in
                  bind_positional bnd st pats
                    (Progress rhs named (b_lhs_named p) (b_rest p) (b_rest_kw p)) s
              end
          end)).
  { destruct P as [P1 [P2 P3]].
    destruct (is_rest_kw n0).
    - destruct (b_rest_kw p); [exact I|]. apply IH; auto. repeat split; assumption.
    - destruct (is_rest n0).
      + destruct (b_rest p); [exact I|]. apply IH; auto. repeat split; assumption.
      + destruct (next_positional _ _) as [[[n1 rhs] named]|] eqn:Q; [|exact I].
        destruct (next_positional_free _ P1 _ _ _ _ P2 Q) as [Q1 [Q2 Q3]].
        apply (fine_bind _ _ layered); [apply B; assumption|].
        intros s1 G1. apply IH; auto. repeat split; assumption. }
  destruct n0; try exact K.
  destruct P as [P1 [P2 P3]]. apply IH; auto. repeat split; auto.
  apply named_insert_free; assumption.
Qed.
Lemma bind_list_with_layered bnd st pats vals s : Forall (binds_fine bnd) pats ->
  layered s -> Forall macro_free pats -> Forall macro_free vals ->
  fine layered (bind_list_with E bnd st pats vals s).
Proof.
  intros B G GP GV. unfold bind_list_with.
  apply (fine_bind _ _ (fun '(p', s') => layered s' /\ free_progress p')).
  - apply bind_positional_layered; [exact B| |exact GP|].
    + revert G. apply layered_same. reflexivity.
    + repeat split; [exact GV|constructor|constructor].
  - intros [p s1] [G1 P1]. apply bind_rest_layered; assumption.
Qed.
Lemma bind_node_layered pat : binds_fine (bind_node E) pat.
Proof.
  induction pat as [a|a|a|a|ns st ew es w IH|k v st w IH] using node_ind'; intros val s G GP GV; cbn [bind_node].
  - cbn. apply put_var_layered; [exact G|]. constructor; [exact GV|constructor].
  - destruct val; try exact I. destruct (beq _ _); [exact G|exact I].
  - destruct val; try exact I; (destruct (beq _ _); [exact G|exact I]).
  - destruct val; try exact I; (destruct (beq _ _); [exact G|exact I]).
  - destruct val; try exact I. apply macro_free_list in GP, GV. apply bind_list_with_layered; assumption.
  - destruct val; try exact I. destruct (beq _ _); [|exact I]. apply IH; assumption.
Qed.
Lemma bind_list_layered st pats vals s : layered s -> Forall macro_free pats -> Forall macro_free vals ->
  fine layered (bind_list E st pats vals s).
Proof. apply bind_list_with_layered. apply Forall_forall. intros p _. apply bind_node_layered. Qed.

(** *** Importing data *)
Definition free_sink (k : sink) : Prop := Forall macro_free (y_nodes k) /\ Forall (Forall macro_free) (y_parent k).
Lemma one_free n : macro_free n -> Forall macro_free [n].
Proof. intros M. constructor; [exact M|constructor]. Qed.
Lemma more_free l n : Forall macro_free l -> macro_free n -> Forall macro_free (l ++ [n]).
Proof. intros L M. apply Forall_app. split; [exact L|apply one_free, M]. Qed.
Lemma str_free a : macro_free (Str a).
Proof. constructor. Qed.
Lemma y_end_free sep st k d : free_sink k -> layered_defs d ->
  fine (fun '(k', d') => free_sink k' /\ layered_defs d') (y_end sep st k d).
Proof.
  intros [K2 K3] D. unfold y_end.
  destruct (match y_modes k with m :: ms => (Some m, ms) | [] => (None, []) end) as [mode modes].
  destruct (match y_parent k with ns :: ps => (ns, ps) | [] => ([], []) end) as [nodes parent] eqn:P.
  assert (GP : Forall macro_free nodes /\ Forall (Forall macro_free) parent).
  { destruct (y_parent k); inversion P; subst; [split; constructor|]. inversion K3; subst. auto. }
  destruct GP as [GN GPA].
  destruct (pop_prefix (y_prefix k)) as [name prefix].
  assert (GL : macro_free (rlist st (y_nodes k) (unless_first nodes))) by (apply macro_free_list, K2).
  set (lst := rlist st (y_nodes k) (unless_first nodes)) in *.
  assert (GD : layered_defs (match name with
    | Some n => put (qualified sep prefix n) (variable [lst]) d | None => d end)).
  { destruct name; [|exact D]. apply defs_variable; [apply one_free, GL|exact D]. }
  destruct mode as [[]|]; [destruct name|..]; cbn; try exact I; (split; [|exact GD]); (split; [|exact GPA]); cbn [y_nodes];
    apply more_free; assumption.
Qed.
Lemma y_event_free sep st e k d : free_sink k -> layered_defs d ->
  fine (fun '(k', d') => free_sink k' /\ layered_defs d') (y_event sep st e k d).
Proof.
  intros K D. destruct e as [v| | | | |]; cbn [y_event]; try (apply y_end_free; assumption).
  - destruct K as [K2 K3]. cbv zeta. destruct (y_defining k) as [name|].
    + assert (GD : layered_defs (put (qualified sep (y_prefix k) name) (variable [Str (Atom v st (b " "))]) d)).
      { apply defs_variable; [apply one_free, str_free|exact D]. }
      destruct (y_mode k) as [[]|]; cbn; try exact I; (split; [|exact GD]); (split; [|exact K3]); cbn [y_nodes];
        (apply more_free; [exact K2|constructor]).
    + destruct (y_mode k) as [[]|]; cbn; try exact I; (split; [|exact D]); (split; [|exact K3]); cbn [y_nodes];
        [exact K2|]. apply more_free; [exact K2|constructor].
  - destruct K as [K2 K3]. cbn. split; [|exact D]. split; [constructor|constructor; assumption].
  - destruct K as [K2 K3]. cbn. split; [|exact D]. split; [constructor|constructor; assumption].
  - cbn. auto.
Qed.
Lemma y_events_free sep st es : forall k d, free_sink k -> layered_defs d ->
  fine (fun '(k', d') => free_sink k' /\ layered_defs d') (y_events sep st es k d).
Proof.
  induction es as [|e es IH]; intros k d K D; cbn [y_events]; [cbn; auto|].
  apply (fine_bind _ _ (fun '(k', d') => free_sink k' /\ layered_defs d')); [apply y_event_free; assumption|].
  intros [k1 d1] [K1 D1]. apply IH; assumption.
Qed.
Lemma expand_yaml_free text sep st d : layered_defs d ->
  fine (fun '(r, d') => fine (Forall macro_free) r /\ layered_defs d') (expand_yaml E text sep st d).
Proof.
  intros D. unfold expand_yaml. destruct (e_yaml E text) as [events ok].
  apply (fine_bind _ _ (fun '(k', d') => free_sink k' /\ layered_defs d')).
  - apply y_events_free; [|exact D]. split; constructor.
  - intros [k d'] [[K _] D']. cbn. split; [|exact D']. destruct ok; [exact K|exact I].
Qed.

Definition plain_toml (v : toml) : Prop := Forall (fun d => starts_with (b "%") d = false) (toml_dates v).
Lemma traverse_free sep st v : forall prefix leading d, plain_toml v -> layered_defs d ->
  macro_free (fst (traverse sep st prefix v leading d)) /\ layered_defs (snd (traverse sep st prefix v leading d)).
Proof.
  induction v as [s|z|s|s|x|l IH|l IH] using toml_ind'; intros prefix leading d G D; cbn [traverse].
  1-3: split; [constructor|exact D].
  - split; [|exact D]. cbn. inversion G; subst. constructor; [assumption|constructor].
  - split; [|exact D]. destruct x; repeat constructor.
  - match goal with |- context [let '(_, _) := ?F 0 l true d in _] => set (go := F) end.
    assert (K : forall l i first d, Forall (fun v => forall prefix leading d, plain_toml v -> layered_defs d ->
      macro_free (fst (traverse sep st prefix v leading d)) /\ layered_defs (snd (traverse sep st prefix v leading d))) l ->
      plain_toml (TomlArray l) -> layered_defs d ->
      Forall macro_free (fst (go i l first d)) /\ layered_defs (snd (go i l first d))).
    { clear. intros l. induction l as [|v l IHl]; intros i first d IH G D; cbn; [split; [constructor|exact D]|].
      inversion IH as [|? ? I1 I2]; subst. unfold plain_toml in G. cbn [toml_dates flat_map] in G.
      apply Forall_app in G as [G1 G2].
      destruct (I1 (prefix ++ [show_nat i]) first d G1 D) as [J1 J2].
      destruct (traverse sep st (prefix ++ [show_nat i]) v first d) as [n d1]. cbn in J1, J2.
      destruct (IHl (S i) false (put (qualified sep prefix (show_nat i)) (variable [n]) d1) I2 G2) as [L1 L2].
      { apply defs_variable; [apply one_free, J1|exact J2]. }
      destruct (go (S i) l false _) as [ns d2]. cbn in *. split; [constructor; assumption|exact L2]. }
    destruct (K l 0 true d IH G D) as [K1 K2]. destruct (go 0 l true d) as [ns d1]. cbn in *.
    split; [|exact K2]. apply macro_free_list, K1.
  - match goal with |- context [let '(_, _) := ?F l true d in _] => set (go := F) end.
    assert (K : forall l first d, Forall (fun x => forall prefix leading d, plain_toml (snd x) -> layered_defs d ->
      macro_free (fst (traverse sep st prefix (snd x) leading d)) /\ layered_defs (snd (traverse sep st prefix (snd x) leading d))) l ->
      plain_toml (TomlTable l) -> layered_defs d ->
      Forall macro_free (fst (go l first d)) /\ layered_defs (snd (go l first d))).
    { clear. intros l. induction l as [|[k v] l IHl]; intros first d IH G D; cbn; [split; [constructor|exact D]|].
      inversion IH as [|? ? I1 I2]; subst. unfold plain_toml in G. cbn [toml_dates flat_map] in G.
      apply Forall_app in G as [G1 G2]. cbn [snd] in I1.
      destruct (I1 (prefix ++ [k]) false d G1 D) as [J1 J2].
      destruct (traverse sep st (prefix ++ [k]) v false d) as [n d1]. cbn in J1, J2.
      destruct (IHl false (put (qualified sep prefix k) (variable [n]) d1) I2 G2) as [L1 L2].
      { apply defs_variable; [apply one_free, J1|exact J2]. }
      destruct (go l false _) as [ns d2]. cbn in *. split; [constructor; assumption|exact L2]. }
    destruct (K l true d IH G D) as [K1 K2]. destruct (go l true d) as [ns d1]. cbn in *.
    split; [|exact K2]. apply macro_free_list, K1.
Qed.
Lemma expand_toml_free text sep st d : layered_defs d ->
  fine (Forall macro_free) (fst (expand_toml E text sep st d)) /\ layered_defs (snd (expand_toml E text sep st d)).
Proof.
  intros D. unfold expand_toml. destruct (e_toml E text) as [l|] eqn:T; [|split; [exact I|exact D]].
  destruct (traverse_free sep st (TomlTable l) [] true d (DATES _ _ T) D) as [A B].
  destruct (traverse _ _ _ _ _ _) as [n d1]. cbn in *. split; [apply one_free, A|exact B].
Qed.

(** *** Expansion *)
Definition runs (n : node) : Prop := forall s, layered s -> ends (fun f => run E f (TNode n) s) good.

Lemma good_intro ns s : Forall macro_free ns -> layered s -> good (ns, s).
Proof. split; assumption. Qed.

Lemma free_runs n : macro_free n -> runs n.
Proof.
  intros M s L. destruct (eval_macro_free E n M s) as [s' [[_ [f0 F]] [D _]]].
  exists (Ok ([n], s')), f0. split; [|split; [exact F|]].
  - intros f. destruct (Nat.le_ge_cases f f0) as [K|K].
    + pose proof (run_le E f f0 (TNode n) s K) as H. unfold expand_node in F. rewrite (F f0) in H by lia. exact H.
    + right. apply F, K.
  - split; [apply one_free, M|]. revert L. apply layered_same, D.
Qed.
Lemma frees_run ns : Forall macro_free ns -> Forall runs ns.
Proof. apply Forall_impl, free_runs. Qed.

Lemma exs_ends ns : Forall runs ns -> forall s, layered s -> ends (fun f => exs (ex f) ns s) good.
Proof.
  induction 1 as [|n ns R _ IH]; intros s L; cbn [exs].
  - apply ends_const. apply good_intro; [constructor|exact L].
  - first_ends; [exact (R s L)|]. intros [xs s1] [X1 L1]. cbn in X1, L1.
    first_ends; [exact (IH s1 L1)|]. intros [ys s2] [Y1 L2]. apply ends_const.
    apply good_intro; [apply Forall_app; auto|exact L2].
Qed.

Lemma eager_ends rs c ps s : well_formed rs -> Forall runs ps -> layered s ->
  ends (fun f => eager (ex f) rs c ps s)
    (fun '(x, vs, s1) => arguments rs (c_node c) vs = Ok x /\ Forall macro_free vs /\ layered s1).
Proof.
  intros W R L. unfold eager. first_ends; [exact (exs_ends ps R s L)|]. intros [vs s1] [V L1]. cbn in V, L1.
  apply ends_const. destruct (arguments_cases rs (c_node c) vs W) as [[_ [x X]]|[_ [e X]]]; rewrite X; cbn [bind]; [|exact I].
  cbn. split; [exact X|]. split; [exact V|]. apply layered_touch, L1.
Qed.

Lemma frame_ends {A} (m : nat -> state -> res (A * state)) s (P : A -> Prop) : layered s ->
  (forall s, layered s -> ends (fun f => m f s) (fun '(x, s1) => P x /\ layered s1)) ->
  ends (fun f => in_frame (m f) s) (fun '(x, d, s1) => P x /\ layered_defs d /\ layered s1).
Proof.
  intros L H. unfold in_frame. first_ends; [apply H; exact L|]. intros [x s1] [PX L1]. apply ends_const.
  cbn. split; [exact PX|]. split; [exact L1|exact L].
Qed.

(** Conversions of arguments. *)
Definition plain_conv {A} (conv : value -> res A) : Prop := forall v, fine (fun _ => True) (conv v).
Lemma conv_atom : plain_conv as_atom. Proof. intros []; exact I. Qed.
Lemma conv_node : plain_conv as_node. Proof. intros []; exact I. Qed.
Lemma conv_list : plain_conv as_list. Proof. intros []; exact I. Qed.
Lemma need_fine {A} (conv : value -> res A) pos x : plain_conv conv -> fine (fun _ => True) (need conv pos x).
Proof. intros C. unfold need. destruct (arg_at pos (x_args x)); [apply C|exact I]. Qed.
Lemma want_fine {A} (conv : value -> res A) pos x : plain_conv conv -> fine (fun _ => True) (want conv pos x).
Proof. intros C. unfold want. destruct (arg_at pos (x_args x)); [|exact I]. specialize (C v). destruct (conv v); exact C || exact I. Qed.
Lemma mapr_fine {A B} (g : A -> res B) l : (forall x, fine (fun _ => True) (g x)) -> fine (fun _ => True) (mapr g l).
Proof.
  intros H. induction l as [|x l IH]; cbn; [exact I|]. apply (fine_bind _ _ (fun _ => True)); [apply H|]. intros y _.
  apply (fine_bind _ _ (fun _ => True)); [exact IH|]. intros ys _. exact I.
Qed.
Lemma rest_fine {A} (conv : value -> res A) x : plain_conv conv -> fine (fun _ => True) (rest_of conv x).
Proof. intros C. unfold rest_of. apply mapr_fine, C. Qed.
Lemma rest_nodes_fine rs c vs x t : well_formed rs -> trailing rs = Some (TAny t) -> arguments rs c vs = Ok x ->
  Forall macro_free vs -> fine (Forall macro_free) (rest_of as_node x).
Proof. intros W T X V. rewrite (rest_nodes _ _ _ _ W X t T). cbn. apply free_surplus, V. Qed.

Ltac step := first
  [ exact I
  | match goal with |- fine _ (error _ _) => exact I end
  | match goal with |- fine _ (bind (need _ _ _) _) => apply (fine_bind _ _ (fun _ => True)); [apply need_fine; first [exact conv_atom | exact conv_node | exact conv_list]|intros ? _] end
  | match goal with |- fine _ (bind (want _ _ _) _) => apply (fine_bind _ _ (fun _ => True)); [apply want_fine; first [exact conv_atom | exact conv_node | exact conv_list]|intros ? _] end
  | match goal with |- fine _ (bind (rest_of _ _) _) => apply (fine_bind _ _ (fun _ => True)); [apply rest_fine; first [exact conv_atom | exact conv_node | exact conv_list]|intros ? _] end
  | match goal with |- fine _ (match ?x with _ => _ end) => destruct x eqn:? end
  | match goal with x : prod _ _ |- _ => destruct x end ].
Ltac steps := repeat step.
Ltac evaluated := first_ends; [apply exs_ends; assumption|]; intros [vs s1] [V L1]; cbn in V, L1; apply ends_const.
Ltac parsed W := first_ends; [apply (eager_ends _ _ _ _ W); assumption|]; intros [[x vs] s1] [X [V L1]]; apply ends_const.
Ltac done := cbn; apply good_intro; [try (apply one_free; exact I || constructor)|try apply layered_touch; try assumption].

Lemma zone_fine tz : fine (fun _ => True) (timezone E tz).
Proof.
  unfold timezone, checked. destruct tz as [a|]; [|exact I].
  destruct (e_fixed E (a_val a)); [|exact I].
  repeat (destruct (fits_i64 _); [|exact I]; cbn [bind]). exact I.
Qed.
Lemma front_fine c a sep s : layered s ->
  fine (fun '(r, s') => fine (fun _ => True) r /\ layered s') (frontmatter E c a sep s).
Proof.
  intros L. unfold frontmatter. destruct (e_front E (a_val a)) as [[t|t|]|]; try (cbn; auto; fail).
  - eapply fine_bind; [apply expand_yaml_free; exact L|]. intros [r d] [R D]. cbn. split; [|exact D].
    destruct r; cbn in *; auto.
  - pose proof (expand_toml_free t sep (call_site c) (x_defs s) L) as [R D].
    destruct (expand_toml E t sep (call_site c) (x_defs s)) as [r d]. cbn in *. split; [|exact D].
    destruct r; cbn in *; auto.
Qed.
Lemma get_item_free item n : macro_free n -> fine macro_free (get_item item n).
Proof.
  intros M. unfold get_item. destruct (list_of n) as [view|] eqn:V; [|exact I].
  pose proof (free_list_of _ _ M V) as F. rewrite Forall_forall in F.
  destruct (match parse_usize item with Some _ => _ | None => _ end) as [m|] eqn:P.
  - destruct (parse_usize item); [|discriminate]. destruct (_ <? _)%N; [|discriminate]. apply F. eapply nth_error_In, P.
  - destruct (find_attr item view) as [m|] eqn:A; [|exact I]. unfold find_attr in A.
    destruct (find _ view) as [q|] eqn:Q; [|discriminate]. apply find_some in Q as [Q _].
    destruct q; inversion A; subst. exact (F _ Q).
Qed.
Lemma get_path_free path : forall n, macro_free n -> fine macro_free (get_path path n).
Proof.
  induction path as [|i path IH]; intros n M; cbn [get_path]; [exact M|].
  apply (fine_bind _ _ macro_free); [apply get_item_free, M|exact IH].
Qed.
Lemma collect_fine t k l : fine (fun _ => True) (glob_collect E t k l).
Proof.
  unfold glob_collect. apply (fine_bind _ _ (fun _ => True)); [|intros; exact I].
  induction l as [|[[p [m|]]|] l IH]; cbn [glob_entries]; try exact I.
  apply (fine_bind _ _ (fun _ => True)); [exact IH|intros; exact I].
Qed.

(** Which of the builtins are simple. *)
Definition is_simple (m : builtin) : bool :=
  match m with
  | BDefine | BMatch | BIfdef | BSymbol | BInclude | BNamespace | BFor | BSort | BMap | BFilter | BApply | BLambda => false
  | _ => true
  end.
Lemma simple_builtin name : In name simple -> exists m, find_builtin name = Some m /\ is_simple m = true.
Proof.
  intros H. unfold simple in H. cbn [map] in H.
  repeat (destruct H as [<-|H]; [eexists; split; reflexivity|]). destruct H.
Qed.

Lemma simple_ends m c ps s : is_simple m = true -> Forall runs ps -> layered s ->
  ends (fun f => run_builtin E (ex f) (inv f) m c ps s) good.
Proof.
  intros S R L. destruct m; try discriminate S; cbn [run_builtin]; clear S.
  - (* do *) apply exs_ends; assumption.
  - (* get *) unfold do_get. parsed wf_get. step.
    destruct (arguments_ok _ _ _ _ wf_get X) as [_ [F _]].
    specialize (F (PInt 2) (mandatory 2 (TAny [])) ltac:(rule)). cbn [given] in F.
    unfold need at 1. destruct (nth_error (positionals vs) 1) as [n|] eqn:G; [|rewrite F; exact I].
    destruct F as [v [-> F]]. cbn in F. subst v. cbn [as_node bind]. step.
    apply (fine_bind _ _ macro_free); [apply get_path_free; eapply free_positionals; eassumption|]. intros m M.
    apply good_intro; [apply one_free, M|exact L1].
  - (* raw *) unfold do_text. evaluated. steps. done.
  - unfold do_text. evaluated. steps. done.
  - (* number *) unfold do_convert. parsed wf_literals. step. cbn. apply good_intro; [|exact L1].
    apply Forall_forall. intros n H. apply in_map_iff in H as [y [<- _]]. constructor.
  - (* embed *) unfold do_embed. evaluated. steps. done.
  - (* markdown *) unfold do_markdown. parsed wf_markdown. do 3 step. cbv zeta.
    match goal with |- context [frontmatter E c ?a ?sep s1] => pose proof (front_fine c a sep s1 L1) as F;
      set (fm := frontmatter E c a sep s1) in * end.
    destruct (option_map a_val a0) as [o|].
    + destruct (beq o (b "frontmatter")); [|destruct (beq o (b "content"))].
      * eapply fine_bind; [exact F|]. intros [r s2] [F1 F2].
        eapply fine_bind; [exact F1|]. intros _ _. cbn. apply good_intro; [constructor|apply layered_touch, F2].
      * destruct (e_html E (a_val a)); [|exact I]. done.
      * exact I.
    + eapply fine_bind; [exact F|]. intros [r s2] [F1 F2]. destruct (e_html E (a_val a)); [|exact I]. cbn. done.
  - (* yaml *) unfold do_yaml. parsed wf_yaml. do 2 step.
    eapply fine_bind; [apply expand_yaml_free; exact L1|]. intros [r d] [F D].
    eapply fine_bind; [exact F|]. intros ns N. apply good_intro; [exact N|]. apply layered_touch. exact D.
  - (* toml *) unfold do_toml. parsed wf_yaml. do 2 step.
    match goal with |- context [expand_toml E ?t ?sep ?st ?d] => pose proof (expand_toml_free t sep st d L1) as [F D];
      destruct (expand_toml E t sep st d) as [r d'] end. cbn in F, D.
    eapply fine_bind; [exact F|]. intros ns N. apply good_intro; [exact N|]. apply layered_touch. exact D.
  - (* glob *) unfold do_glob. parsed wf_glob. do 4 step.
    apply (fine_bind _ _ (fun _ => True)); [steps|]. intros t _.
    apply (fine_bind _ _ (fun _ => True)); [steps|]. intros k _. cbv zeta.
    step; [|exact I]. apply (fine_bind _ _ (fun _ => True)); [apply collect_fine|]. intros set _.
    destruct set; [|exact I]. cbn. apply good_intro; [|exact L1]. apply free_first.
    apply Forall_forall. intros n H. apply in_map_iff in H as [y [<- _]]. constructor.
  - (* reverse *) unfold do_reverse. parsed wf_reverse.
    destruct (arguments_ok _ _ _ _ wf_reverse X) as [_ [F _]].
    specialize (F (PInt 1) (mandatory 1 (TList [])) ltac:(rule)). cbn [given] in F.
    unfold need at 1. destruct (nth_error (positionals vs) 0) as [n|] eqn:G; [|rewrite F; exact I].
    destruct F as [v [-> [l [F ->]]]]. cbn [as_list bind]. pose proof (free_positionals _ _ _ V G) as M.
    pose proof (free_list_of _ _ M F) as FL.
    destruct vs as [|[]]; try exact I. cbn. apply good_intro; [|exact L1]. apply one_free, macro_free_list, free_with_ws.
    apply Forall_rev, FL.
  - (* date *) unfold do_date. parsed wf_date. do 3 step.
    apply (fine_bind _ _ (fun _ => True)); [apply zone_fine|]. intros z _.
    apply (fine_bind _ _ (fun _ => True)); [steps|]. intros t _. steps. done.
  - (* timestamp *) unfold do_timestamp. parsed wf_timestamp. do 3 step.
    apply (fine_bind _ _ (fun _ => True)); [apply zone_fine|]. intros z _. step; [|exact I].
    apply (fine_bind _ _ (fun _ => True)); [steps|]. intros t _. done.
  - (* join *) unfold do_join. parsed wf_join. do 3 step. done.
  - (* concat *) unfold do_concat. parsed wf_literals. step. done.
  - (* splat *) unfold do_splat. evaluated. cbn. apply good_intro; [|exact L1].
    apply Forall_flat_map. revert V. apply Forall_impl, free_splat.
  - (* list *) unfold do_list. evaluated. destruct (c_node c); try exact I. cbn.
    apply good_intro; [apply one_free, macro_free_list, V|apply layered_touch, L1].
  - (* strip *) unfold do_strip. evaluated. cbn. apply good_intro; [apply free_first, V|exact L1].
  - (* log *) unfold do_log. evaluated. steps. cbn. apply good_intro; [constructor|].
    apply layered_touch with (c := c) in L1. revert L1. apply layered_same. reflexivity.
  - (* format *) unfold do_format. evaluated. steps. done.
  - (* env *) unfold do_env. evaluated. steps. done.
Qed.

(** *** Calls *)
Lemma is_call_fun name args name' args' n : is_call name args n -> is_call name' args' n -> name = name' /\ args = args'.
Proof.
  intros [a [st [ew [es [w [-> A]]]]]] [a' [st' [ew' [es' [w' [H A']]]]]]. inversion H; subst. split; [|reflexivity].
  rewrite A in A'. inversion A'. reflexivity.
Qed.
Lemma is_call_ws w name args n : is_call name args n -> is_call name args (set_ws w n).
Proof. intros [a [st [ew [es [w0 [-> A]]]]]]. exists a, st, ew, es, w. split; [reflexivity|exact A]. Qed.
Lemma not_free name args n : is_call name args n -> ~ macro_free n.
Proof.
  intros [a [st [ew [es [w [-> A]]]]]] M. apply macro_free_list in M. inversion M as [|? ? H _]; subst.
  inversion H as [|? ? K _]; subst. rewrite A, percent in K. discriminate.
Qed.
Lemma below_ws w r n : below r n -> below r (set_ws w n).
Proof.
  intros H. destruct H.
  - apply below_plain, macro_free_ws. assumption.
  - eapply below_variable; eassumption.
  - apply below_keyword. assumption.
  - apply below_list; [|assumption]. intros name args [a [st' [ew' [es' [w' [Q A]]]]]]. inversion Q; subst.
    eapply H. exists a, st', ew', es', w0. split; [reflexivity|exact A].
  - eapply below_simple; [apply is_call_ws; eassumption|..]; assumption.
  - eapply below_macro; [apply is_call_ws; eassumption|..]; assumption.
  - eapply below_value; [apply is_call_ws; eassumption|..]; assumption.
  - eapply below_define; [apply is_call_ws; eassumption|..]; assumption.
  - eapply below_lambda; [apply is_call_ws; eassumption|..]; eassumption.
  - eapply below_applied; [apply is_call_ws; eassumption|..]; assumption.
  - eapply below_sort; [apply is_call_ws; eassumption|..]; assumption.
  - eapply below_match; [apply is_call_ws; eassumption|..]; assumption.
  - eapply below_ifdef; [apply is_call_ws; eassumption|..]; assumption.
  - eapply below_for; [apply is_call_ws; eassumption|..]; assumption.
  - eapply below_namespace; [apply is_call_ws; eassumption|..]; assumption.
  - eapply below_include; [apply is_call_ws; eassumption|..]; assumption.
Qed.
Lemma received_all (P : node -> Prop) args : (forall w n, P n -> P (set_ws w n)) -> Forall P args -> Forall P (received args).
Proof.
  intros W [|x l H K]; constructor; [|exact K]. destruct (has LF (leading_ws x)); [exact H|apply W, H].
Qed.
Lemma depth_ws w n : depth (set_ws w n) = depth n.
Proof. destruct n; reflexivity. Qed.
Lemma depth_in m ns : In m ns -> depth m <= fold_right Nat.max 0 (map depth ns).
Proof. induction ns as [|x ns IH]; cbn; [contradiction|]. intros [->|H]; [lia|]. specialize (IH H). lia. Qed.
Lemma depth_list m n ns : list_of n = Some ns -> In m ns -> depth m < depth n.
Proof. destruct n; try discriminate. intros H I0. inversion H; subst. cbn. apply depth_in in I0. lia. Qed.
Lemma depth_arg name args n m : is_call name args n -> In m args -> depth m < depth n.
Proof.
  intros [a [st [ew [es [w [-> _]]]]]] H. apply (depth_list m _ (Sym a :: args)); [reflexivity|right; exact H].
Qed.

Lemma call_runs name args n : is_call name args n ->
  (forall c s, layered s -> ends (fun f => invoke E (ex f) (inv f) name c (received args) s) good) -> runs n.
Proof.
  intros [a [st [ew [es [w [-> A]]]]]] H s L. apply ends_S; [reflexivity|].
  cbn [run expand_one symbol]. unfold register. rewrite A, percent. change (skipn 1 (b "%" ++ name)) with name.
  apply ends_S; [reflexivity|]. cbn [run]. apply H. revert L. apply layered_same. reflexivity.
Qed.

(** Raising the level. *)
Lemma callable_le r r' name : r <= r' -> callable level r name -> callable level r' name.
Proof. intros L [H|[H K]]; [left; exact H|right; split; [exact H|lia]]. Qed.
Lemma function_le r r' n : r <= r' -> function_of level r n -> function_of level r' n.
Proof.
  intros L [[a [-> [S C]]]|[args [C U]]].
  - left. exists a. split; [reflexivity|]. split; [exact S|]. eapply callable_le; eassumption.
  - right. exists args. split; [exact C|]. intros u. specialize (U u). lia.
Qed.
Lemma below_le r r' : r <= r' -> forall n, below r n -> below r' n.
Proof.
  intros L. enough (H : forall d n, depth n < d -> below r n -> below r' n) by (intros n; apply (H (S (depth n))); lia).
  induction d as [|d IH]; intros n D H; [lia|].
  assert (SUB : forall m, depth m < depth n -> below r m -> below r' m) by (intros m DM; apply IH; lia).
  assert (ARGS : forall name args, is_call name args n -> forall l, incl l args -> Forall (below r) l -> Forall (below r') l).
  { intros name args C l J F. rewrite Forall_forall in *. intros m I0. apply SUB; [|apply F, I0]. eapply depth_arg; [exact C|apply J, I0]. }
  clear IH D. remember r as q eqn:Q. destruct H; subst.
  - apply below_plain. assumption.
  - eapply below_variable; [eassumption|lia].
  - apply below_keyword. apply SUB; [cbn; lia|assumption].
  - apply below_list; [assumption|]. match goal with F : Forall _ ns |- _ => rewrite Forall_forall in *; intros m J; apply SUB; [|apply F, J] end.
    apply (depth_list m (Lst ns st ew es w) ns); [reflexivity|exact J].
  - eapply below_simple; [eassumption|assumption|]. eapply ARGS; [eassumption|apply incl_refl|assumption].
  - eapply below_macro; [eassumption|assumption|lia|]. eapply ARGS; [eassumption|apply incl_refl|assumption].
  - eapply below_value; [eassumption|]. eapply ARGS; [eassumption|apply incl_tl, incl_refl|assumption].
  - eapply below_define; eassumption.
  - eapply below_lambda; eassumption.
  - eapply below_applied; [eassumption|assumption|eapply function_le; eassumption|]. eapply ARGS; [eassumption|apply incl_refl|assumption].
  - eapply below_sort; [eassumption|].
    match goal with C : is_call _ _ _, F : Forall _ args |- _ => rewrite Forall_forall in *; intros m J;
      pose proof (depth_arg _ _ _ _ C J); destruct (F m J) as [[A [B G]]|[A B]] end; [left; auto|right].
    split; [exact A|]. intros a st w K. eapply callable_le; [exact L|]. eapply B, K.
  - match goal with C : is_call _ _ _ |- _ => eapply below_match; [exact C| |];
      [apply SUB; [eapply depth_arg; [exact C|left; reflexivity]|assumption]|];
      intros cl ns J K; pose proof (depth_arg _ _ _ cl C (or_intror J)) end.
    match goal with F : forall cl ns, In cl _ -> _ |- _ => specialize (F cl ns J K); rewrite Forall_forall in *; intros m Z; apply SUB; [|apply F, Z] end.
    pose proof (depth_list m cl ns K Z). lia.
  - eapply below_ifdef; [eassumption|]. eapply ARGS; [eassumption|apply incl_tl, incl_refl|assumption].
  - match goal with C : is_call _ _ _ |- _ => eapply below_for; [exact C|assumption|assumption| |];
      [intros items K; pose proof (depth_arg _ _ _ l C (or_intror (or_intror (or_introl eq_refl))))|
       eapply ARGS; [exact C| |assumption]; do 3 apply incl_tl; apply incl_refl] end.
    match goal with F : forall items, list_of l = _ -> _ |- _ => specialize (F items K) end.
    apply Forall_forall. intros m Z. apply SUB; [pose proof (depth_list m l items K Z); lia|].
    match goal with F : Forall _ items |- _ => rewrite Forall_forall in F; apply F, Z end.
  - eapply below_namespace; [eassumption|assumption|]. eapply ARGS; [eassumption|apply incl_refl|assumption].
  - eapply below_include; [eassumption|lia|]. eapply ARGS; [eassumption|apply incl_refl|assumption].
Qed.

Section Step.
Variable r : nat.
Hypothesis LOW : forall r' m, r' < r -> below r' m -> runs m.

(** Applying a macro by name. *)
Lemma user_ends name c ps s : find_builtin name = None -> level name < r -> Forall runs ps -> layered s ->
  ends (fun f => invoke E (ex f) (inv f) name c ps s) good.
Proof.
  intros B V R L. unfold invoke. rewrite B. unfold call_macro. first_ends; [apply exs_ends; assumption|].
  intros [vs s1] [F L1]. cbn in F, L1. destruct (get name (x_defs s1)) as [m|] eqn:G; [|apply ends_const; exact I].
  destruct (L1 _ _ G) as [P Q]. unfold apply_macro.
  first_ends; [apply (frame_ends (fun f s => let* s := bind_list E (call_site c) (m_params m) vs s in exs (ex f) (m_body m) s)
    s1 (Forall macro_free) L1)|].
  - intros s2 L2. first_fine; [apply (bind_list_layered _ _ _ _ L2 P F)|]. intros s3 _ L3.
    eapply ends_impl; [apply exs_ends; [|exact L3]|].
    + revert Q. apply Forall_impl. intros x. apply LOW, V.
    + intros [ns s4] H. exact H.
  - intros [[ns d] s2] [N [_ L2]]. apply ends_const. split; assumption.
Qed.
Lemma invoke_callable name c ps s : callable level r name -> Forall runs ps -> layered s ->
  ends (fun f => run E f (TInvoke name c ps) s) good.
Proof.
  intros C R L. apply ends_S; [reflexivity|]. cbn [run]. destruct C as [C|[B V]].
  - destruct (simple_builtin name C) as [m [B S]]. unfold invoke. rewrite B. apply simple_ends; assumption.
  - apply user_ends; assumption.
Qed.
Lemma map_each_ends d name c ns : callable level r name -> Forall macro_free ns -> forall s, layered s ->
  ends (fun f => map_each (inv f) d name c ns s) good.
Proof.
  intros C. induction 1 as [|n ns M _ IH]; intros s L; cbn [map_each].
  - apply ends_const. apply good_intro; [constructor|exact L].
  - first_ends; [apply invoke_callable; [exact C|apply frees_run, one_free, M|exact L]|]. intros [xs s1] [X L1]. cbn in X, L1.
    cbv zeta. first_ends; [apply IH, L1|]. intros [ys s2] [Y L2]. apply ends_const. apply good_intro; [|exact L2].
    apply Forall_app. split; [|exact Y]. destruct xs as [|x [|]]; try exact X. destruct (d && null x); [constructor|exact X].
Qed.
Lemma sort_keys_ends name c st ns : callable level r name -> Forall macro_free ns -> forall s, layered s ->
  ends (fun f => sort_keys (inv f) name c st ns s) (fun '(items, s') => Forall macro_free (map snd items) /\ layered s').
Proof.
  intros C. induction 1 as [|n ns M _ IH]; intros s L; cbn [sort_keys].
  - apply ends_const. split; [constructor|exact L].
  - first_ends.
    + eapply (ends_ext (fun f => (fun q => match q with Err _ => error ESort st | q => q end)
        (run E f (TInvoke name c [n]) s))); [intros f; destruct (run E f (TInvoke name c [n]) s); reflexivity|].
      apply (ends_map (fun f => run E f (TInvoke name c [n]) s)
        (fun q => match q with Err _ => error ESort st | q => q end) good good);
        [apply invoke_callable; [exact C|apply frees_run, one_free, M|exact L]|reflexivity|].
      intros q Q. destruct q; exact Q.
    + intros [key s1] [_ L1]. cbn in L1. destruct key as [|k [|]]; try (apply ends_const; exact I).
      destruct (atomic k) as [a|]; [|apply ends_const; exact I].
      first_ends; [apply IH, L1|]. intros [items s2] [Y L2]. apply ends_const. split; [|exact L2].
      cbn. constructor; assumption.
Qed.

Variable n : node.
Hypothesis SUB : forall m, depth m < depth n -> below r m -> runs m.

Lemma args_run name args : is_call name args n -> Forall (below r) args -> Forall runs (received args).
Proof.
  intros C H. assert (K : Forall (fun m => depth m < depth n /\ below r m) (received args)).
  { apply received_all; [intros w m [D B]; rewrite depth_ws; split; [exact D|apply below_ws, B]|].
    rewrite Forall_forall in *. intros m I0. split; [eapply depth_arg; eassumption|apply H, I0]. }
  revert K. apply Forall_impl. intros m [D B]. apply SUB; assumption.
Qed.

Lemma runs_simple name args : is_call name args n -> In name simple -> Forall (below r) args -> runs n.
Proof.
  intros C S H. apply (call_runs name args n C). intros c s L.
  destruct (simple_builtin name S) as [m [B M]]. unfold invoke. rewrite B.
  apply simple_ends; [exact M|eapply args_run; eassumption|exact L].
Qed.
Lemma runs_macro name args : is_call name args n -> find_builtin name = None -> level name < r -> Forall (below r) args -> runs n.
Proof.
  intros C B V H. apply (call_runs name args n C). intros c s L. apply user_ends; try assumption.
  eapply args_run; eassumption.
Qed.

Lemma create_layered name ps body s : layered s -> Forall macro_free ps -> Forall (below (level name)) body ->
  fine layered (create_macro name ps body s).
Proof.
  intros L P Q. assert (K : layered (set_defs (put name (Macro ps body) (x_defs s)) s)).
  { exact (defs_put name (Macro ps body) (x_defs s) P Q L). }
  unfold create_macro. destruct (List.filter amp ps) as [|? [|? ?]]; try exact I;
    destruct (List.filter ampamp ps) as [|? [|? ?]]; exact I || exact K.
Qed.
Lemma symbol_ws w a : exists a', set_ws w (Sym a) = Sym a' /\ a_val a' = a_val a.
Proof. eexists. split; reflexivity. Qed.

Lemma runs_value a body : is_call (b "define") (Sym a :: body) n -> Forall (below r) body -> runs n.
Proof.
  intros C H. apply (call_runs _ _ n C). intros c s L.
  change (ends (fun f => do_define (ex f) c (received (Sym a :: body)) s) good).
  assert (R : Forall runs (tl (received (Sym a :: body)))).
  { cbn [received tl]. apply Forall_forall. intros m I0. apply SUB.
    - eapply depth_arg; [exact C|]. right. exact I0.
    - rewrite Forall_forall in H. apply H, I0. }
  assert (K : exists a', received (Sym a :: body) = Sym a' :: body).
  { cbn [received]. destruct (has LF (leading_ws (Sym a))); eexists; reflexivity. }
  destruct K as [a' K]. rewrite K in *. cbn [tl] in R. unfold do_define. cbn [symbol].
  first_ends; [apply exs_ends; assumption|]. intros [vs s1] [V L1]. cbn in V, L1. apply ends_const.
  apply (fine_bind _ _ layered); [apply create_layered; [exact L1|constructor|apply free_below, V]|].
  intros s2 L2. apply good_intro; [constructor|exact L2].
Qed.
Lemma runs_define a params st ew es w body : is_call (b "define") (Lst (Sym a :: params) st ew es w :: body) n ->
  Forall macro_free params -> Forall (below (level (a_val a))) body -> runs n.
Proof.
  intros C P H. apply (call_runs _ _ n C). intros c s L.
  change (ends (fun f => do_define (ex f) c (received (Lst (Sym a :: params) st ew es w :: body)) s) good).
  assert (K : exists w', received (Lst (Sym a :: params) st ew es w :: body) = Lst (Sym a :: params) st ew es w' :: body).
  { cbn [received]. destruct (has LF _); eexists; reflexivity. }
  destruct K as [w' ->]. unfold do_define. cbn [symbol list_of]. apply ends_const.
  apply (fine_bind _ _ layered); [apply create_layered; assumption|].
  intros s2 L2. apply good_intro; [constructor|exact L2].
Qed.

Lemma not_attr_ws w p : is_attribute p = false -> is_attribute (set_ws w p) = false.
Proof. destruct p; exact (fun H => H). Qed.
Lemma positionals_cons p ps : is_attribute p = false -> positionals (p :: ps) = p :: positionals ps.
Proof. intros H. unfold positionals. cbn [List.filter]. rewrite H. reflexivity. Qed.
Lemma slots_cons k p ps : is_attribute p = false -> slots k (p :: ps) = (PInt (S k), p) :: slots (S k) ps.
Proof. destruct p; intros H; try reflexivity. discriminate H. Qed.

(** A lambda leaves a callable name. *)
Lemma lambda_ends l params body c s : is_attribute params = false -> macro_free params ->
  (forall u, level (lambda_name u) = l) -> Forall (below l) body -> layered s ->
  ends (fun f => do_lambda E c (received (params :: body)) s)
    (fun '(ns, s1) => layered s1 /\ exists a u, ns = [Sym a] /\ a_val a = lambda_name u).
Proof.
  intros AT P U H L.
  assert (K : exists p', received (params :: body) = p' :: body /\ macro_free p' /\ is_attribute p' = false).
  { cbn [received]. destruct (has LF (leading_ws params)); eexists; (split; [reflexivity|]);
      (split; [apply macro_free_ws || idtac; exact P|apply not_attr_ws || idtac; exact AT]). }
  destruct K as [p' [-> [P' AT']]]. apply ends_const. unfold do_lambda.
  destruct (arguments_cases rules_lambda (c_node c) (p' :: body) wf_lambda) as [[_ [x X]]|[_ [e X]]]; rewrite X; cbn [bind]; [|exact I].
  assert (GV : given (PInt 1) (p' :: body) = Some p') by (cbn [given]; rewrite positionals_cons by exact AT'; reflexivity).
  rewrite (need_node _ _ _ _ wf_lambda X (PInt 1) (mandatory 1 (TAny [])) p' [] ltac:(rule) GV eq_refl). cbn [bind].
  rewrite (rest_nodes _ _ _ _ wf_lambda X [] eq_refl). cbn [bind].
  apply (fine_bind _ _ (Forall macro_free)).
  { destruct (list_of p') as [q|] eqn:Q; [exact (free_list_of _ _ P' Q)|]. destruct (symbol p'); [apply one_free, P'|exact I]. }
  intros ps F. cbv zeta.
  apply (fine_bind _ _ layered).
  { apply create_layered; [apply layered_touch, L|exact F|].
    change (b "__lambda" ++ uuid E s (call_site c)) with (lambda_name (uuid E s (call_site c))). rewrite U.
    apply Forall_forall. intros m I0. apply surplus_in in I0. destruct I0 as [<-|I0]; [apply below_plain, P'|].
    rewrite Forall_forall in H. apply H, I0. }
  intros s1 L1. cbn. split; [exact L1|]. eexists _, _. split; reflexivity.
Qed.
Lemma lambda_free u : starts_with (b "%") (lambda_name u) = false.
Proof. reflexivity. Qed.
Lemma runs_lambda l params body : is_call (b "lambda") (params :: body) n -> is_attribute params = false -> macro_free params ->
  (forall u, level (lambda_name u) = l) -> Forall (below l) body -> runs n.
Proof.
  intros C AT P U H. apply (call_runs _ _ n C). intros c s L.
  change (ends (fun f => do_lambda E c (received (params :: body)) s) good).
  eapply ends_impl; [apply (lambda_ends l); assumption|]. intros [ns s1] [L1 [a [u [-> A]]]].
  apply good_intro; [|exact L1]. constructor; [|constructor]. constructor; [|constructor]. rewrite A. apply lambda_free.
Qed.

(** *** Higher-order macros *)
Lemma lambda_inv f args : below r f -> is_call (b "lambda") args f -> exists l params body,
  args = params :: body /\ is_attribute params = false /\ macro_free params /\
  (forall u, level (lambda_name u) = l) /\ Forall (below l) body.
Proof.
  intros H. remember r as q eqn:RQ. destruct H; intros C;
    repeat match goal with K : is_call ?nm ?ar _ |- _ =>
      lazymatch nm with b "lambda" => fail | _ => destruct (is_call_fun _ _ _ _ _ K C) as [Q1 Q2]; clear K; try discriminate Q1 end end.
  - exfalso. eapply not_free; eassumption.
  - destruct C as [? [? [? [? [? [C _]]]]]]. discriminate.
  - destruct C as [? [? [? [? [? [C _]]]]]]. discriminate.
  - exfalso. eapply H, C.
  - exfalso. subst name. match goal with H0 : In _ simple |- _ => unfold simple in H0; cbn [map] in H0;
    repeat (destruct H0 as [H0|H0]; [discriminate H0|]); exact H0 end.
  - subst name. discriminate.
  - match goal with K : is_call _ (params :: body) _ |- _ => destruct (is_call_fun _ _ _ _ _ K C) as [_ Q2] end.
    subst args. exists l, params, body. auto.
  - exfalso. subst name. match goal with H0 : In _ [_; _; _] |- _ => destruct H0 as [H0|[H0|[H0|[]]]]; discriminate H0 end.
Qed.
Definition one_function (p : list node * state) : Prop :=
  layered (snd p) /\ exists a, fst p = [Sym a] /\ starts_with (b "%") (a_val a) = false /\ callable level r (a_val a).
Lemma function_ends f : function_of level r f -> below r f -> forall s, layered s ->
  ends (fun fu => run E fu (TNode f) s) one_function.
Proof.
  intros [[a [-> [S C]]]|[args [C U]]] B s L.
  - apply ends_S; [reflexivity|]. cbn [run expand_one]. rewrite S. apply ends_const. split; [exact L|].
    exists a. auto.
  - destruct (lambda_inv f args B C) as [l [params [body [-> [AT [P [UL H]]]]]]].
    pose proof C as C0. destruct C0 as [a [st [ew [es [w [-> A]]]]]]. apply ends_S; [reflexivity|].
    cbn [run expand_one symbol]. unfold register. rewrite A, percent.
    change (skipn 1 (b "%" ++ b "lambda")) with (b "lambda").
    apply ends_S; [reflexivity|]. cbn [run].
    match goal with |- ends (fun f => invoke _ _ _ _ ?c _ ?s0) _ =>
      change (ends (fun f => do_lambda E c (received (params :: body)) s0) one_function);
      assert (L0 : layered s0) by (revert L; apply layered_same; reflexivity) end.
    eapply ends_impl; [apply (lambda_ends l); assumption|]. intros [ns s1] [L1 [a1 [u [-> A1]]]].
    split; [exact L1|]. exists a1. split; [reflexivity|]. rewrite A1. split; [apply lambda_free|].
    right. split; [apply lambda_not_builtin|]. apply U.
Qed.
Lemma function_ws w f : function_of level r f -> function_of level r (set_ws w f).
Proof.
  intros [[a [-> [S C]]]|[args [C U]]].
  - left. eexists. split; [reflexivity|]. split; [exact S|exact C].
  - right. exists args. split; [apply is_call_ws, C|exact U].
Qed.
Lemma applied_args name f args s : is_call name (f :: args) n -> function_of level r f -> Forall (below r) (f :: args) -> layered s ->
  ends (fun fu => exs (ex fu) (received (f :: args)) s) (fun '(vs, s1) => layered s1 /\ Forall macro_free vs /\
    exists a rest, vs = Sym a :: rest /\ callable level r (a_val a)).
Proof.
  intros C F B L. pose proof (args_run _ _ C B) as R.
  assert (K : exists f', received (f :: args) = f' :: args /\ function_of level r f' /\ below r f').
  { inversion B; subst. cbn [received]. destruct (has LF (leading_ws f)); eexists; (split; [reflexivity|]); [auto|].
    split; [apply function_ws, F|apply below_ws; assumption]. }
  destruct K as [f' [K [F' B']]]. rewrite K in *. cbn [exs].
  first_ends; [apply function_ends; assumption|]. intros [xs s1] [L1 [a [X [S CA]]]]. cbn in L1, X. subst xs.
  inversion R; subst. first_ends; [apply exs_ends; assumption|]. intros [ys s2] [Y L2]. cbn in Y, L2.
  apply ends_const. split; [exact L2|]. split; [|eexists _, _; split; [reflexivity|exact CA]].
  constructor; [|exact Y]. constructor; [exact S|constructor].
Qed.
Lemma eager_applied name f args c s : is_call name (f :: args) n -> function_of level r f -> Forall (below r) (f :: args) -> layered s ->
  ends (fun fu => eager (ex fu) rules_map c (received (f :: args)) s) (fun '(x, vs, s1) => layered s1 /\ Forall macro_free vs /\
    arguments rules_map (c_node c) vs = Ok x /\ exists a rest, vs = Sym a :: rest /\ callable level r (a_val a)).
Proof.
  intros C F B L. unfold eager. first_ends; [eapply applied_args; eassumption|]. intros [vs s1] [L1 [V H]].
  apply ends_const. destruct (arguments_cases rules_map (c_node c) vs wf_map) as [[_ [x X]]|[_ [e X]]]; rewrite X; cbn [bind]; [|exact I].
  cbn. split; [apply layered_touch, L1|]. auto.
Qed.
Lemma runs_applied name f args : is_call name (f :: args) n -> In name [b "map"; b "filter"; b "apply"] ->
  function_of level r f -> Forall (below r) (f :: args) -> runs n.
Proof.
  intros C N F B. apply (call_runs _ _ n C). intros c s L.
  assert (K : forall (k : nat -> bytes -> list node -> state -> out),
    (forall name l s, callable level r name -> Forall macro_free l -> layered s -> ends (fun f => k f name l s) good) ->
    ends (fun fu => let* '(x, _, s) := eager (ex fu) rules_map c (received (f :: args)) s in
      let* g := need as_atom (PInt 1) x in let* l := rest_of as_node x in k fu (a_val g) l s) good).
  { intros k K. first_ends; [eapply eager_applied; eassumption|]. intros [[x vs] s1] [L1 [V [X [a [rest [-> CA]]]]]].
    first_fine; [apply need_fine, conv_atom|]. intros g G _.
    assert (Q : need as_atom (PInt 1) x = Ok a).
    { apply (need_atom _ _ _ _ wf_map X (PInt 1) (mandatory 1 (TSymbol [])) (Sym a) a ltac:(rule)); reflexivity. }
    assert (g = a) by congruence. subst g. clear G.
    first_fine; [eapply (rest_nodes_fine rules_map _ _ _ [] wf_map eq_refl X V)|]. intros l _ FL.
    apply K; assumption. }
  destruct N as [<-|[<-|[<-|[]]]].
  - apply (K (fun fu name l s => map_each (inv fu) false name c l s)). intros. apply map_each_ends; assumption.
  - apply (K (fun fu name l s => map_each (inv fu) true name c l s)). intros. apply map_each_ends; assumption.
  - apply (K (fun fu name l s => run E fu (TInvoke name c l) s)). intros. apply invoke_callable; [assumption|apply frees_run; assumption|assumption].
Qed.

(** *** Lists *)
Lemma list_ends ns st ew es w s : no_call (Lst ns st ew es w) -> Forall runs ns -> layered s ->
  ends (fun f => run E f (TNode (Lst ns st ew es w)) s)
    (fun '(vs, s1) => layered s1 /\ exists l, Forall macro_free l /\ vs = [Lst l st ew es w]).
Proof.
  intros NC R L. apply ends_S; [reflexivity|]. cbn [run].
  destruct ns as [|h t]; [unfold expand_one; apply ends_const; cbn; split; [exact L|]; exists []; split; [constructor|reflexivity]|].
  assert (P : forall s, layered s -> ends (fun f => let* '(ns, s) := exs (ex f) (h :: t) s in Ok ([Lst ns st ew es w], s))
    (fun '(vs, s1) => layered s1 /\ exists l, Forall macro_free l /\ vs = [Lst l st ew es w])).
  { intros s0 L0. first_ends; [apply exs_ends; [exact R|exact L0]|]. intros [vs s1] [V L1]. apply ends_const.
    split; [exact L1|]. exists vs. auto. }
  destruct (symbol h) as [a|] eqn:S.
  - destruct h; try discriminate. inversion S; subst. unfold expand_one, register. cbn [symbol].
    destruct (starts_with (b "%") (a_val a)) eqn:Q.
    + exfalso. apply starts_with_iff in Q as [name Q]. apply (NC name t). exists a, st, ew, es, w. auto.
    + apply P. revert L. apply layered_same. reflexivity.
  - unfold expand_one. rewrite S. apply P, L.
Qed.
Lemma runs_list ns st ew es w : n = Lst ns st ew es w -> no_call n -> Forall (below r) ns -> runs n.
Proof.
  intros -> NC H s L. eapply ends_impl; [apply list_ends; [exact NC| |exact L]|].
  - apply Forall_forall. intros m I0. apply SUB; [apply (depth_list m _ ns); [reflexivity|exact I0]|].
    rewrite Forall_forall in H. apply H, I0.
  - intros [vs s1] [L1 [l [F ->]]]. apply good_intro; [apply one_free, macro_free_list, F|exact L1].
Qed.

(** *** Sorting *)
Definition sortable (x : node) : Prop :=
  (is_list x /\ no_call x /\ below r x) \/
  (macro_free x /\ forall a st w, x = Attr (b "key") (Sym a) st w -> callable level r (a_val a)).
Definition keyed_args (p : list node * state) : Prop :=
  layered (snd p) /\ Forall macro_free (fst p) /\
  forall a st w, In (Attr (b "key") (Sym a) st w) (fst p) -> callable level r (a_val a).
Lemma sortable_ws w x : sortable x -> sortable (set_ws w x).
Proof.
  intros [[[l Q] [NC B]]|[M K]].
  - left. split; [|split; [|apply below_ws, B]].
    + destruct x; try discriminate. eexists. reflexivity.
    + intros name args [a [st [ew [es [w' [H A]]]]]]. destruct x; try discriminate. inversion H; subst.
      eapply NC. eexists _, _, _, _, _. split; [reflexivity|exact A].
  - right. split; [apply macro_free_ws, M|]. intros a st w' H. destruct x; try discriminate. inversion H; subst.
    eapply K. reflexivity.
Qed.
Lemma list_items ns st ew es w : no_call (Lst ns st ew es w) -> below r (Lst ns st ew es w) -> Forall (below r) ns.
Proof.
  intros NC B. inversion B; subst; try (exfalso; eapply NC; eassumption); [|assumption].
  apply free_below. apply macro_free_list in H. exact H.
Qed.
Lemma sortable_ends x : sortable x -> depth x < depth n -> forall s, layered s ->
  ends (fun f => run E f (TNode x) s) keyed_args.
Proof.
  intros [[[l Q] [NC B]]|[M K]] D s L.
  - destruct x as [| | | |ns st ew es w|]; try discriminate. eapply ends_impl.
    + apply list_ends; [exact NC| |exact L].
      pose proof (list_items _ _ _ _ _ NC B) as BS. apply Forall_forall. intros m I0. rewrite Forall_forall in BS.
      apply SUB; [|apply BS, I0]. pose proof (depth_list m (Lst ns st ew es w) ns eq_refl I0). lia.
    + intros [vs s1] [L1 [l' [F ->]]]. split; [exact L1|]. split; [apply one_free, macro_free_list, F|].
      intros a st' w' [H|[]]. discriminate H.
  - destruct (eval_macro_free E x M s) as [s' [[_ [f0 F]] [DF _]]].
    exists (Ok ([x], s')), f0. split; [|split; [exact F|]].
    + intros f. destruct (Nat.le_ge_cases f f0) as [J|J].
      * pose proof (run_le E f f0 (TNode x) s J) as H. unfold expand_node in F. rewrite (F f0) in H by lia. exact H.
      * right. apply F, J.
    + split; [revert L; apply layered_same, DF|]. split; [apply one_free, M|].
      intros a st w [H|[]]. eapply K, H.
Qed.
Lemma sortables_end xs : Forall sortable xs -> Forall (fun x => depth x < depth n) xs -> forall s, layered s ->
  ends (fun f => exs (ex f) xs s) keyed_args.
Proof.
  induction 1 as [|x xs SX _ IH]; intros D s L; cbn [exs].
  - apply ends_const. split; [exact L|]. split; [constructor|]. intros a st w [].
  - inversion D; subst. first_ends; [apply sortable_ends; assumption|]. intros [ys s1] [L1 [Y K1]]. cbn in L1, Y, K1.
    first_ends; [apply IH; assumption|]. intros [zs s2] [L2 [Z K2]]. cbn in L2, Z, K2. apply ends_const.
    split; [exact L2|]. split; [apply Forall_app; auto|]. intros a st w H. cbn in H. apply in_app_or in H as [H|H]; eauto.
Qed.
Lemma runs_sort args : is_call (b "sort") args n -> Forall sortable args -> runs n.
Proof.
  intros C H. apply (call_runs _ _ n C). intros c s L.
  change (ends (fun f => do_sort E (ex f) (inv f) c (received args) s) good). unfold do_sort, eager.
  assert (R : Forall (fun x => sortable x /\ depth x < depth n) (received args)).
  { apply received_all; [intros w m [A B]; rewrite depth_ws; split; [apply sortable_ws, A|exact B]|].
    rewrite Forall_forall in *. intros m I0. split; [apply H, I0|eapply depth_arg; eassumption]. }
  apply (ends_bind (fun f => let* '(ps, s) := exs (ex f) (received args) s in
      let* x := arguments rules_sort (c_node c) ps in Ok (x, ps, touch c s))
    (fun f '(x, _, s) =>
      let* n := need as_node (PInt 1) x in
      let* order := want as_atom (PStr (b "order")) x in
      let* key := want as_atom (PStr (b "key")) x in
      let key_site := match key with Some a => a_site a | None => call_site c end in
      let name := val_or (b "do") key in
      let ascending := beq (val_or (b "ascending") order) (b "ascending") in
      match n with
      | Lst nodes st ew es _ =>
          let* '(items, s) := sort_keys (inv f) name c key_site nodes s in
          let* sorted :=
            sort_by E (fun x y => if ascending then key_cmp E (fst x) (fst y)
                                else key_cmp E (fst y) (fst x)) items in
          Ok ([Lst (with_ws_of (map snd sorted) nodes) st ew es (call_ws c)], touch c s)
      | _ => error ESort (node_site n)
      end)
    (fun '(x, vs, s1) => arguments rules_sort (c_node c) vs = Ok x /\ keyed_args (vs, s1))).
  - first_ends; [apply sortables_end; [| |exact L]; revert R; apply Forall_impl; intros x [A B]; assumption|].
    intros [vs s1] [L1 [V K1]]. cbn in L1, V, K1. apply ends_const.
    destruct (arguments_cases rules_sort (c_node c) vs wf_sort) as [[_ [x X]]|[_ [e X]]]; rewrite X; cbn [bind]; [|exact I].
    cbn. split; [exact X|]. split; [apply layered_touch, L1|]. auto.
  - intros [[x vs] s1] [X [L1 [V K1]]]. cbn in L1, V, K1.
    destruct (arguments_ok _ _ _ _ wf_sort X) as [_ [F _]].
    specialize (F (PInt 1) (mandatory 1 (TAny [])) ltac:(rule)). cbn [given] in F.
    unfold need at 1. destruct (nth_error (positionals vs) 0) as [m|] eqn:G; [|rewrite F; cbn [bind]; apply ends_const; exact I].
    destruct F as [v [-> F]]. cbn in F. subst v. cbn [as_node bind].
    rewrite (want_atom _ _ _ _ wf_sort X (PStr (b "order")) (option_named (b "order") (TLiteral (one_of [b "ascending"; b "descending"]))) ltac:(rule) eq_refl).
    rewrite (want_atom _ _ _ _ wf_sort X (PStr (b "key")) (option_named (b "key") (TSymbol [])) ltac:(rule) eq_refl).
    cbn [bind given]. cbv zeta.
    assert (CK : callable level r (val_or (b "do") (match keyword_value (b "key") vs with Some n0 => atomic n0 | None => None end))).
    { destruct (keyword_value (b "key") vs) as [v|] eqn:Q; [|left; left; reflexivity].
      destruct (atomic v) as [a|] eqn:A; [|left; left; reflexivity].
      destruct (arguments_ok _ _ _ _ wf_sort X) as [AC _].
      apply keyword_in in Q as [st [w I0]].
      destruct AC as [AC _].
      assert (SL : In (PStr (b "key"), Attr (b "key") v st w) (slots 0 vs)).
      { apply slots_kw. split; [exact I0|]. eauto. }
      pose proof (AC _ _ (option_named (b "key") (TSymbol [])) SL ltac:(rule)) as [[a' Q] _]. cbn in Q. subst v.
      cbn in A. inversion A; subst. cbn. eapply K1, I0. }
    pose proof (free_positionals _ _ _ V G) as M.
    destruct m as [| | | |nodes st ew es w|]; try (apply ends_const; exact I).
    apply macro_free_list in M.
    first_ends; [apply sort_keys_ends; [exact CK|exact M|exact L1]|]. intros [items s2] [IT L2]. apply ends_const.
    match goal with |- fine _ (let* sorted := ?q in _) => destruct q as [sorted|e|p| |] eqn:SB end; try exact I;
      [|apply sort_by_iff in SB; inversion SB ..]. apply sort_by_perm in SB. cbn [bind fine].
    apply good_intro; [|apply layered_touch, L2]. apply one_free, macro_free_list, free_with_ws.
    apply Forall_forall. intros y Y. apply in_map_iff in Y as [z [<- Z]]. apply (Permutation_in _ SB) in Z.
    rewrite Forall_forall in IT. apply IT. apply in_map, Z.
Qed.

(** *** Control *)
Lemma clauses_end v cls : macro_free v ->
  (forall cl ns, In cl cls -> list_of cl = Some ns -> Forall runs ns) -> forall s, layered s ->
  ends (fun f => match_clauses E (ex f) v cls s) good.
Proof.
  intros M. induction cls as [|cl cls IH]; intros H s L; cbn [match_clauses].
  - apply ends_const. apply good_intro; [constructor|exact L].
  - destruct (list_of cl) as [ns|] eqn:Q; [|apply ends_const; exact I].
    pose proof (H cl ns (or_introl eq_refl) Q) as R.
    destruct ns as [|pat body]; [apply ends_const; exact I|]. inversion R as [|? ? RP RB]; subst.
    first_ends; [exact (RP s L)|]. intros [ps s1] [P L1]. cbn in P, L1.
    destruct ps as [|p [|]]; try (apply ends_const; exact I). inversion P as [|? ? MP _]; subst.
    assert (B : forall s, layered s -> fine layered (bind_node E p v s)) by (intros; apply bind_node_layered; assumption).
    assert (K : ends (fun f => let* '(ns, _, s) :=
      in_frame (fun s => let* s := bind_node E p v s in exs (ex f) body s) s1 in Ok (ns, s)) good).
    { first_ends; [apply (frame_ends (fun f s => let* s := bind_node E p v s in exs (ex f) body s) s1 (Forall macro_free) L1)|].
      - intros s2 L2. first_fine; [apply B, L2|]. intros s3 _ L3. eapply ends_impl; [apply exs_ends; assumption|].
        intros [ys s4] Y. exact Y.
      - intros [[ys d] s2] [Y [_ L2]]. apply ends_const. split; assumption. }
    destruct (bind_node E p v (State (x_defs s1) (vec_clone (x_vec s1)) (x_world s1))); try exact K.
    apply IH; [|exact L1]. intros cl' ns' I0. apply H. right. exact I0.
Qed.
Lemma runs_match value clauses : is_call (b "match") (value :: clauses) n -> below r value ->
  (forall cl ns, In cl clauses -> list_of cl = Some ns -> Forall (below r) ns) -> runs n.
Proof.
  intros C B H. apply (call_runs _ _ n C). intros c s L.
  change (ends (fun f => do_match E (ex f) c (received (value :: clauses)) s) good).
  assert (K : exists v', received (value :: clauses) = v' :: clauses /\ runs v').
  { assert (D : depth value < depth n) by (eapply depth_arg; [exact C|left; reflexivity]).
    cbn [received]. destruct (has LF (leading_ws value)); eexists; (split; [reflexivity|]); apply SUB;
      rewrite ?depth_ws; try apply below_ws; assumption. }
  destruct K as [v' [-> R]]. unfold do_match. first_ends; [exact (R s L)|]. intros [vs s1] [V L1]. cbn in V, L1.
  destruct vs as [|v [|]]; try (apply ends_const; exact I). inversion V; subst.
  apply clauses_end; [assumption| |exact L1]. intros cl ns I0 Q. specialize (H cl ns I0 Q).
  apply Forall_forall. intros m J. apply SUB.
  - pose proof (depth_list m cl ns Q J). pose proof (depth_arg _ _ n cl C (or_intror I0)). lia.
  - rewrite Forall_forall in H. apply H, J.
Qed.
Lemma runs_ifdef cond branches : is_call (b "ifdef") (cond :: branches) n -> Forall (below r) branches -> runs n.
Proof.
  intros C H. apply (call_runs _ _ n C). intros c s L.
  change (ends (fun f => do_ifdef (ex f) c (received (cond :: branches)) s) good).
  assert (R : Forall runs branches).
  { apply Forall_forall. intros m I0. apply SUB; [eapply depth_arg; [exact C|right; exact I0]|].
    rewrite Forall_forall in H. apply H, I0. }
  cbn [received]. set (cond' := if has LF (leading_ws cond) then cond else set_ws [] cond). clearbody cond'.
  assert (K : forall m : nat -> out, ends m good -> ends (fun f => let* '(ns, s) := m f in
    match ns with [] => Ok ([], s) | _ => Ok (set_first_ws (call_ws c) ns, touch c s) end) good).
  { intros m M. first_ends; [exact M|]. intros [ns s1] [N L1]. cbn in N, L1. apply ends_const.
    destruct ns as [|x ns]; [apply good_intro; [constructor|exact L1]|].
    apply good_intro; [apply free_first, N|apply layered_touch, L1]. }
  assert (Z : ends (fun _ => Ok ([], s) : out) good) by (apply ends_const; apply good_intro; [constructor|exact L]).
  unfold do_ifdef.
  destruct branches as [|yes [|no [|]]]; try (apply ends_const; exact I); inversion R as [|? ? RY R2]; subst.
  - destruct (atomic cond'); [|apply ends_const; exact I].
    destruct (defined (a_val a) (x_defs s)); [apply (K _ (RY s L))|apply (K _ Z)].
  - inversion R2 as [|? ? RN _]; subst. destruct (atomic cond'); [|apply ends_const; exact I].
    destruct (defined (a_val a) (x_defs s)); [apply (K _ (RY s L))|apply (K _ (RN s L))].
Qed.
Lemma for_each_ends p items body : macro_free p -> Forall macro_free items -> Forall runs body -> forall s, layered s ->
  ends (fun f => for_each E (ex f) p items body s) (fun '(ns, s1) => Forall macro_free ns /\ layered s1).
Proof.
  intros M IT R. induction IT as [|i items MI _ IH]; intros s L; cbn [for_each].
  - apply ends_const. split; [constructor|exact L].
  - first_fine; [apply (bind_node_layered p i s L M MI)|]. intros s1 _ L1.
    first_ends; [apply exs_ends; assumption|]. intros [xs s2] [X L2]. cbn in X, L2.
    first_ends; [apply IH, L2|]. intros [ys s3] [Y L3]. apply ends_const. split; [apply Forall_app; auto|exact L3].
Qed.
Lemma surplus_for p i l body : Forall (fun x => is_attribute x = false) [p; i; l] ->
  forall m, In m (surplus rules_for (p :: i :: l :: body)) -> In m body.
Proof.
  intros A m. inversion A as [|? ? A1 A']; subst. inversion A' as [|? ? A2 A'']; subst. inversion A'' as [|? ? A3 _]; subst.
  unfold surplus. rewrite (slots_cons 0 p), (slots_cons 1 i), (slots_cons 2 l) by assumption.
  change (In m (map snd (List.filter (fun '(pos, _) => negb (has_rule rules_for pos)) (slots 3 body))) -> In m body).
  intros H. apply in_map_iff in H as [[pos q] [<- H]]. apply filter_In in H as [H _]. eapply slots_in, H.
Qed.
Lemma runs_for p i l body : is_call (b "for") (p :: i :: l :: body) n ->
  Forall (fun x => is_attribute x = false) [p; i; l] -> macro_free p ->
  (forall items, list_of l = Some items -> Forall (below r) items) -> Forall (below r) body -> runs n.
Proof.
  intros C A M HI HB. apply (call_runs _ _ n C). intros c s L.
  change (ends (fun f => do_for E (ex f) c (received (p :: i :: l :: body)) s) good).
  assert (K : exists p', received (p :: i :: l :: body) = p' :: i :: l :: body /\ macro_free p' /\
    Forall (fun x => is_attribute x = false) [p'; i; l]).
  { cbn [received]. inversion A; subst. destruct (has LF (leading_ws p)); eexists; (split; [reflexivity|]); [auto|].
    split; [apply macro_free_ws, M|]. constructor; [apply not_attr_ws; assumption|assumption]. }
  destruct K as [p' [-> [M' A']]]. unfold do_for.
  destruct (arguments_cases rules_for (c_node c) (p' :: i :: l :: body) wf_for) as [[_ [x X]]|[_ [e X]]]; rewrite X; cbn [bind];
    [|apply ends_const; exact I].
  assert (PO : positionals (p' :: i :: l :: body) = p' :: i :: l :: positionals body).
  { inversion A' as [|? ? A1 A2]; subst. inversion A2 as [|? ? A3 A4]; subst. inversion A4; subst.
    rewrite !positionals_cons by assumption. reflexivity. }
  rewrite (need_node _ _ _ _ wf_for X (PInt 1) (mandatory 1 (TAny [])) p' [] ltac:(rule)) by (cbn [given]; rewrite ?PO; reflexivity).
  cbn [bind].
  destruct (arguments_ok _ _ _ _ wf_for X) as [_ [F _]].
  specialize (F (PInt 3) (mandatory 3 (TList [])) ltac:(rule)). cbn [given] in F. rewrite PO in F. cbn [nth_error] in F.
  destruct F as [v [V [items [Q ->]]]]. unfold need at 1. rewrite V. cbn [as_list bind].
  rewrite (rest_nodes _ _ _ _ wf_for X [] eq_refl). cbn [bind].
  assert (DL : depth l < depth n) by (eapply depth_arg; [exact C|right; right; left; reflexivity]).
  assert (RI : Forall runs items).
  { specialize (HI items Q). apply Forall_forall. intros m J. rewrite Forall_forall in HI. apply SUB; [|apply HI, J].
    pose proof (depth_list m l items Q J). lia. }
  assert (RB : Forall runs (surplus rules_for (p' :: i :: l :: body))).
  { apply Forall_forall. intros m J. apply (surplus_for _ _ _ _ A') in J. rewrite Forall_forall in HB. apply SUB; [|apply HB, J].
    eapply depth_arg; [exact C|]. right; right; right. exact J. }
  set (rest := surplus rules_for (p' :: i :: l :: body)) in *. clearbody rest.
  first_ends; [apply exs_ends; [exact RI|apply layered_touch, L]|]. intros [vs s1] [VF L1]. cbn in VF, L1.
  first_ends; [apply (frame_ends (fun f => for_each E (ex f) p' vs rest) s1 (Forall macro_free) L1); intros s2 L2;
    apply for_each_ends; assumption|].
  intros [[ns d] s2] [N [_ L2]]. apply ends_const. split; assumption.
Qed.
Lemma copy_layered prefix keys from : (forall k, level k <= level (prefix ++ k)) -> forall to, layered_defs from -> layered_defs to ->
  layered_defs (copy_prefixed prefix keys from to).
Proof.
  intros MO. unfold copy_prefixed. induction keys as [|k keys IH]; intros to F T; cbn; [exact T|].
  apply IH; [exact F|]. destruct (get k from) as [m|] eqn:Q; [|exact T]. destruct (F k m Q) as [F1 F2].
  apply defs_put; [exact F1| |exact T]. revert F2. apply Forall_impl. intros x. apply below_le, MO.
Qed.
Lemma options_free ns : Forall macro_free ns -> forall sep,
  fine (fun '(_, body) => Forall macro_free body) (namespace_options sep ns).
Proof.
  induction 1 as [|x ns M H IH]; intros sep; cbn [namespace_options]; [constructor|].
  destruct x; try (constructor; assumption). destruct (beq _ _); [|exact I]. destruct (atomic _); [apply IH|exact I].
Qed.
Lemma runs_namespace args : is_call (b "namespace") args n -> (forall p k, level k <= level (p ++ k)) ->
  Forall (below r) args -> runs n.
Proof.
  intros C MO B. pose proof (args_run _ _ C B) as R. apply (call_runs _ _ n C). intros c s L.
  change (ends (fun f => do_namespace E (ex f) c (received args) s) good). unfold do_namespace.
  first_ends; [apply (frame_ends (fun f => exs (ex f) (received args)) s (Forall macro_free) L); intros s1 L1;
    eapply ends_impl; [apply exs_ends; assumption|intros [ns s2] H; exact H]|].
  intros [[ns d] s1] [N [D L1]]. apply ends_const. destruct ns as [|x ns]; [exact I|]. destruct (atomic x); [|exact I].
  inversion N; subst. eapply fine_bind; [apply options_free; assumption|]. intros [sep body] F. cbn in F.
  apply good_intro; [exact F|]. apply (layered_same (set_defs (copy_prefixed (a_val a ++ sep)
    (e_order E (g_seed (x_world s1)) (scope_names d)) d (x_defs s1)) s1)); [reflexivity|].
  apply (copy_layered _ _ d (MO _)); assumption.
Qed.
Lemma runs_include args : is_call (b "include") args n -> level (b "include") < r -> Forall (below r) args -> runs n.
Proof.
  intros C LV B. pose proof (args_run _ _ C B) as R. apply (call_runs _ _ n C). intros c s L.
  change (ends (fun f => do_include E (ex f) c (received args) s) good). unfold do_include.
  first_ends; [apply exs_ends; [exact R|exact L]|]. intros [ns s1] [N L1]. cbn in N, L1.
  destruct ns as [|x [|]]; try (apply ends_const; exact I). destruct (atomic x); [|apply ends_const; exact I].
  destruct (search_file E true (e_includes E) (a_val a)) as [[path text]|] eqn:Q; [|apply ends_const; exact I].
  apply Proofs_panic.search_read in Q. cbn [add_source].
  pose proof (FILES path text (length (g_sources (x_world s1))) Q) as F.
  destruct (parse (e_unescape E) (length (g_sources (x_world s1))) text); try contradiction; [|apply ends_const; exact I].
  first_ends; [apply exs_ends; [revert F; apply Forall_impl; intros m; apply LOW, LV|]; revert L1; apply layered_same; reflexivity|].
  intros [ys s2] [Y L2]. cbn in Y, L2. apply ends_const. destruct ys; apply good_intro; try assumption.
  - apply free_first, Y.
  - apply layered_touch, L2.
Qed.
Lemma runs_variable a name : n = Sym a -> a_val a = b "%" ++ name -> level name < r -> runs n.
Proof.
  intros -> A LV s L. apply ends_S; [reflexivity|]. cbn [run expand_one]. rewrite A, percent.
  change (skipn 1 (b "%" ++ name)) with name.
  destruct (get name (x_defs s)) as [m|] eqn:G; [|apply ends_const; exact I].
  destruct (m_params m); [|apply ends_const; exact I]. destruct (L _ _ G) as [_ F].
  first_ends; [apply exs_ends; [revert F; apply Forall_impl; intros x; apply LOW, LV|exact L]|].
  intros [ys s2] [Y L2]. apply ends_const. apply good_intro; [apply free_first, Y|exact L2].
Qed.
Lemma runs_keyword k v st w : n = Attr k v st w -> below r v -> runs n.
Proof.
  intros -> B s L. apply ends_S; [reflexivity|]. cbn [run expand_one].
  first_ends; [apply (SUB v); [cbn; lia|exact B|exact L]|]. intros [ys s2] [Y L2]. cbn in Y, L2. apply ends_const.
  destruct ys as [|y ys]; [exact I|]. inversion Y; subst. apply good_intro; [|exact L2].
  constructor; [apply free_keyword; assumption|assumption].
Qed.
Lemma step_runs : below r n -> runs n.
Proof.
  enough (G : forall q m, below q m -> q = r -> m = n -> runs n) by (intros H; exact (G r n H eq_refl eq_refl)).
  intros q m H RQ NM. destruct H; match goal with J : ?x = r |- _ => subst x end;
    try match goal with J : ?x = n |- _ => is_var x; subst x end.
  - apply free_runs. assumption.
  - eapply runs_variable; [symmetry; eassumption|eassumption..].
  - eapply runs_keyword; [symmetry; eassumption|eassumption].
  - eapply runs_list; [symmetry; eassumption|rewrite <- NM; assumption|assumption].
  - eapply runs_simple; eassumption.
  - eapply runs_macro; eassumption.
  - eapply runs_value; eassumption.
  - eapply runs_define; eassumption.
  - eapply runs_lambda; eassumption.
  - eapply runs_applied; eassumption.
  - eapply runs_sort; eassumption.
  - eapply runs_match; eassumption.
  - eapply runs_ifdef; eassumption.
  - eapply runs_for; eassumption.
  - eapply runs_namespace; eassumption.
  - eapply runs_include; eassumption.
Qed.
End Step.

Theorem below_runs : forall r n, below r n -> runs n.
Proof.
  intros r. induction r as [r LOW] using lt_wf_ind. intros n. remember (depth n) as d eqn:D. revert n D.
  induction d as [d SUB] using lt_wf_ind. intros n -> H. apply (step_runs r); [intros; eapply LOW; eassumption| |exact H].
  intros m DM. apply (SUB (depth m)); [exact DM|reflexivity].
Qed.
Theorem program_ends r path text tree : parse (e_unescape E) 0 text = Ok tree -> Forall (below r) tree ->
  ends (fun f => expand E f path text) (fun '(ns, _) => Forall macro_free ns).
Proof.
  intros P H. unfold expand. rewrite P. cbn [bind].
  eapply ends_impl; [apply exs_ends|].
  - revert H. apply Forall_impl. intros n. apply below_runs.
  - intros name m G. discriminate G.
  - intros [ns s] [F _]. exact F.
Qed.
End Halt.
