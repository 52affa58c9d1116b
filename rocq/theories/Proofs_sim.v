(** * Proofs: what the outcome of an expansion depends on

    Two runs side by side, from states that differ in the memory of
    [invocations] and the count of dangling reads only, and in environments
    that differ in the order of hash maps only. *)

From Coq Require Import String List Ascii Bool Arith NArith ZArith Lia Permutation.
From Verif Require Import Text Res Ast Args Env Scope State Bind Data Paths Sorting Parser Numbers Expander
  Spec_args Spec_expand Spec_bind Spec_scope Spec_order Proofs_text Proofs_ast Proofs_run Proofs_bind Proofs_scope.
From Verif Require Import Args Expander.
Import ListNotations.

(** ** States *)

Definition undangled (w : world) : world :=
  World (g_log w) (g_seed w) (g_ordered w) (g_sources w) (g_freed w) 0.
Definition sim (s s' : state) : Prop :=
  x_defs s = x_defs s' /\ undangled (x_world s) = undangled (x_world s').
Lemma sim_refl s : sim s s.
Proof. split; reflexivity. Qed.
Lemma sim_sym s s' : sim s s' -> sim s' s.
Proof. intros [A B]. split; symmetry; assumption. Qed.
Lemma sim_trans s s' s2 : sim s s' -> sim s' s2 -> sim s s2.
Proof. intros [A B] [C D]. split; etransitivity; eauto. Qed.

Lemma sim_defs s s' : sim s s' -> x_defs s = x_defs s'.
Proof. intros [A _]. exact A. Qed.
Lemma sim_world s s' : sim s s' ->
  g_log (x_world s) = g_log (x_world s') /\ g_seed (x_world s) = g_seed (x_world s') /\
  g_ordered (x_world s) = g_ordered (x_world s') /\ g_sources (x_world s) = g_sources (x_world s') /\
  g_freed (x_world s) = g_freed (x_world s').
Proof. intros [_ H]. unfold undangled in H. inversion H. auto. Qed.
Lemma sim_make s s' : x_defs s = x_defs s' ->
  g_log (x_world s) = g_log (x_world s') -> g_seed (x_world s) = g_seed (x_world s') ->
  g_ordered (x_world s) = g_ordered (x_world s') -> g_sources (x_world s) = g_sources (x_world s') ->
  g_freed (x_world s) = g_freed (x_world s') -> sim s s'.
Proof. intros A B C D F G. split; [exact A|]. unfold undangled. congruence. Qed.

Ltac sims := intros;
  repeat match goal with H : sim _ _ |- _ => let D := fresh "D" in
    assert (D := sim_defs _ _ H); apply sim_world in H as [? [? [? [? ?]]]] end;
  apply sim_make; cbn; congruence.

Lemma sim_set_defs d s s' : sim s s' -> sim (set_defs d s) (set_defs d s').
Proof. sims. Qed.
Lemma sim_put_var k body s s' : sim s s' -> sim (put_var k body s) (put_var k body s').
Proof. unfold put_var. sims. Qed.
Lemma sim_new_maps n s s' : sim s s' -> sim (new_maps n s) (new_maps n s').
Proof. sims. Qed.
Lemma sim_order_matters s s' : sim s s' -> sim (order_matters s) (order_matters s').
Proof. sims. Qed.
Lemma sim_log st t s s' : sim s s' -> sim (log_line st t s) (log_line st t s').
Proof. sims. Qed.
Lemma sim_touch c c' s s' : sim s s' -> sim (touch c s) (touch c' s').
Proof. unfold touch. destruct (_ =? _), (_ =? _); sims. Qed.
Lemma sim_vec v v' s s' : sim s s' -> sim (State (x_defs s) v (x_world s)) (State (x_defs s') v' (x_world s')).
Proof. sims. Qed.
Lemma ordered_touch c s : g_ordered (x_world (touch c s)) = g_ordered (x_world s).
Proof. unfold touch. destruct (_ =? _); reflexivity. Qed.

Section Sim.
Variable E : env.
Variable o : nat -> list bytes -> list bytes.
Variable strict : Prop.
Hypothesis ORDER : forall seed l, Permutation (e_order E seed l) l.
Hypothesis ORDER' : forall seed l, Permutation (o seed l) l.
Hypothesis STRICT : strict -> forall seed l, e_order E seed l = o seed l.
Let E' := with_order o E.

(** ** Outcomes *)

Definition rel {X} (w : X -> state) (Q : X -> X -> Prop) (s : state) (r r' : res X) : Prop :=
  match r with
  | Ok x => g_ordered (x_world s) <= g_ordered (x_world (w x)) /\
      (strict \/ g_ordered (x_world (w x)) = g_ordered (x_world s) -> exists x', r' = Ok x' /\ Q x x')
  | _ => strict -> r' = r
  end.
Definition pair_sim {A} (x x' : A * state) : Prop := fst x = fst x' /\ sim (snd x) (snd x').
Definition osim {A} : state -> res (A * state) -> res (A * state) -> Prop := rel snd pair_sim.
Definition ssim : state -> res state -> res state -> Prop := rel (fun s => s) sim.

Lemma pair_refl {A} (x : A * state) : pair_sim x x.
Proof. split; [reflexivity|apply sim_refl]. Qed.

Lemma rel_bind {X Y} (w : X -> state) (Q : X -> X -> Prop) (w2 : Y -> state) (Q2 : Y -> Y -> Prop) s r r' k k' :
  (forall x, Q x x) -> rel w Q s r r' ->
  (forall x x', Q x x' -> rel w2 Q2 (w x) (k x) (k' x')) -> rel w2 Q2 s (bind r k) (bind r' k').
Proof.
  intros R H K. destruct r as [x|e|p| |]; cbn [bind].
  2-5: intros S; rewrite (H S); reflexivity.
  destruct H as [M H]. pose proof (K x x (R x)) as K0.
  destruct (k x) as [y|e|p| |] eqn:KX; cbn [rel] in K0 |- *.
  - destruct K0 as [M0 _]. split; [lia|]. intros S.
    assert (S1 : strict \/ g_ordered (x_world (w x)) = g_ordered (x_world s)) by (destruct S; [auto|right; lia]).
    destruct (H S1) as [x' [-> Qx]]. cbn [bind]. pose proof (K x x' Qx) as K1. rewrite KX in K1. cbn in K1.
    apply K1. destruct S; [auto|right; lia].
  - intros S. destruct (H (or_introl S)) as [x' [-> Qx]]. pose proof (K x x' Qx) as K1. rewrite KX in K1. exact (K1 S).
  - intros S. destruct (H (or_introl S)) as [x' [-> Qx]]. pose proof (K x x' Qx) as K1. rewrite KX in K1. exact (K1 S).
  - intros S. destruct (H (or_introl S)) as [x' [-> Qx]]. pose proof (K x x' Qx) as K1. rewrite KX in K1. exact (K1 S).
  - intros S. destruct (H (or_introl S)) as [x' [-> Qx]]. pose proof (K x x' Qx) as K1. rewrite KX in K1. exact (K1 S).
Qed.
Lemma rel_pure {X Y} (w : Y -> state) (Q : Y -> Y -> Prop) s (r : res X) k k' :
  (forall x, r = Ok x -> rel w Q s (k x) (k' x)) -> rel w Q s (bind r k) (bind r k').
Proof. intros H. destruct r; cbn [bind]; [apply H|intros _..]; reflexivity. Qed.
Lemma osim_pure {X A} s (r : res X) (k k' : X -> res (A * state)) :
  (forall x, r = Ok x -> osim s (k x) (k' x)) -> osim s (bind r k) (bind r k').
Proof. apply rel_pure. Qed.
Lemma osim_bind {A B} s r r' (k k' : A * state -> res (B * state)) :
  osim s r r' -> (forall x s1 s1', sim s1 s1' -> osim s1 (k (x, s1)) (k' (x, s1'))) ->
  osim s (bind r k) (bind r' k').
Proof.
  intros H K. eapply rel_bind; [exact pair_refl|exact H|].
  intros [x s1] [x' s1'] [Q S]. cbn in Q, S |- *. subst. apply K, S.
Qed.
Lemma ssim_bind {B} s r r' (k k' : state -> res (B * state)) :
  ssim s r r' -> (forall s1 s1', sim s1 s1' -> osim s1 (k s1) (k' s1')) -> osim s (bind r k) (bind r' k').
Proof. intros H K. eapply rel_bind; [exact sim_refl|exact H|exact K]. Qed.
Lemma osim_ok {A} (x : A) s s1 s1' : g_ordered (x_world s) <= g_ordered (x_world s1) -> sim s1 s1' ->
  osim s (Ok (x, s1)) (Ok (x, s1')).
Proof. intros L S. split; [exact L|]. intros _. eexists. split; [reflexivity|]. split; [reflexivity|exact S]. Qed.
Lemma osim_error {A} k st s : osim s (@error (A * state) k st) (error k st).
Proof. intros _. reflexivity. Qed.
Lemma osim_panic {A} p s : osim s (@Panic (A * state) p) (Panic p).
Proof. intros _. reflexivity. Qed.
Lemma osim_from {A} s s0 (r r' : res (A * state)) : g_ordered (x_world s) = g_ordered (x_world s0) ->
  osim s0 r r' -> osim s r r'.
Proof. unfold osim, rel. intros ->. auto. Qed.

(** ** Binding *)

Lemma insert_sizes k n l : length (named_insert k n l) <= S (length l).
Proof. induction l as [|[j m] l IH]; cbn; [lia|]. destruct (beq k j); cbn; lia. Qed.

Lemma sim_rest seed p s s' : NoDup (map fst (b_lhs_named p)) -> NoDup (map fst (b_rhs_named p)) -> sim s s' ->
  ssim s (bind_rest E seed p s) (bind_rest E' seed p s').
Proof.
  intros NL NR S. unfold bind_rest. rewrite leftover_eq.
  set (rest := positionals (b_rhs p)). set (rhs := inserts (rpairs (b_rhs p)) (b_rhs_named p)).
  assert (NR' : NoDup (map fst rhs)) by (apply inserts_nodup, NR).
  apply (rel_bind (fun s => s) sim); [exact sim_refl| |].
  { destruct (b_rest p); [|destruct (rev rest)].
    - split; [cbn; lia|]. intros _. eexists. split; [reflexivity|]. apply sim_put_var, S.
    - split; [cbn; lia|]. intros _. eexists. split; [reflexivity|exact S].
    - intros _. reflexivity. }
  intros s1 s1' S1. clear S s s'.
  assert (PK : Permutation (e_order E (Datatypes.S seed) (map fst (b_lhs_named p))) (map fst (b_lhs_named p))) by apply ORDER.
  assert (PK' : Permutation (o (Datatypes.S seed) (map fst (b_lhs_named p))) (map fst (b_lhs_named p))) by apply ORDER'.
  assert (NK := Permutation_NoDup (Permutation_sym PK) NL). assert (NK' := Permutation_NoDup (Permutation_sym PK') NL).
  change (e_order E') with o. rewrite !bind_named_eq by assumption.
  assert (FQ : List.filter (fun '(j, _) => negb (existsb (fun k => beq k j) (e_order E (Datatypes.S seed) (map fst (b_lhs_named p))))) rhs
    = List.filter (fun '(j, _) => negb (existsb (fun k => beq k j) (o (Datatypes.S seed) (map fst (b_lhs_named p))))) rhs).
  { apply filter_ext. intros [j n]. f_equal. apply eq_iff_eq_true. rewrite !existsb_exists.
    split; intros [k [I Q]]; exists k; (split; [|exact Q]).
    - rewrite PK in I. rewrite PK'. exact I.
    - rewrite PK' in I. rewrite PK. exact I. }
  rewrite <- FQ. set (left := List.filter _ rhs). clearbody left.
  assert (DQ : assign (flat_map (kw_value (b_lhs_named p) rhs) (e_order E (Datatypes.S seed) (map fst (b_lhs_named p)))) (x_defs s1)
    = assign (flat_map (kw_value (b_lhs_named p) rhs) (o (Datatypes.S seed) (map fst (b_lhs_named p)))) (x_defs s1')).
  { rewrite <- (sim_defs _ _ S1). apply assign_perm.
    - apply Permutation_flat_map. rewrite PK, PK'. reflexivity.
    - assert (G : forall keys, NoDup keys -> NoDup (map fst (flat_map (kw_value (b_lhs_named p) rhs) keys)) /\
        forall k, In k (map fst (flat_map (kw_value (b_lhs_named p) rhs) keys)) -> In k keys).
      { induction keys as [|k keys IH]; intros N; [split; [constructor|auto]|]. inversion N as [|? ? NI NK2]; subst.
        destruct (IH NK2) as [A B]. cbn [flat_map]. rewrite map_app. unfold kw_value at 1 3.
        destruct (match assoc k rhs with Some (Attr _ v _ _) => Some v | _ => assoc k (b_lhs_named p) end); cbn.
        - split; [constructor; [|exact A]|].
          + intros I. apply NI, B, I.
          + intros j [<-|I]; auto.
        - split; [exact A|]. intros j I. auto. }
      apply G, NK. }
  rewrite <- DQ. set (d := assign _ (x_defs s1)). clearbody d.
  assert (S2 := sim_set_defs d _ _ S1).
  destruct (b_rest_kw p) as [a|].
  - destruct (2 <=? length left) eqn:L.
    + split; [cbn; lia|]. intros [ST|Q]; [|cbn in Q; lia]. eexists. split; [reflexivity|].
      rewrite (STRICT ST). apply sim_put_var, sim_order_matters, S2.
    + apply Nat.leb_gt in L. split; [cbn; lia|]. intros _. eexists. split; [reflexivity|].
      replace (o seed (map fst left)) with (e_order E seed (map fst left)); [apply sim_put_var, S2|].
      destruct left as [|[k n] [|]]; cbn in L; [| |lia].
      * rewrite (Permutation_nil (Permutation_sym (ORDER seed (map fst [])))).
        rewrite (Permutation_nil (Permutation_sym (ORDER' seed (map fst [])))). reflexivity.
      * cbn [map fst]. rewrite (Permutation_length_1_inv (Permutation_sym (ORDER seed [k]))).
        rewrite (Permutation_length_1_inv (Permutation_sym (ORDER' seed [k]))). reflexivity.
  - destruct (entries (e_order E seed (map fst left)) left) as [|n ns] eqn:EN.
    + split; [cbn; lia|]. intros _.
      assert (EN' : entries (o seed (map fst left)) left = []).
      { apply Permutation_nil. rewrite <- EN. unfold entries. apply Permutation_flat_map. rewrite ORDER, ORDER'. reflexivity. }
      rewrite EN'. eexists. split; [reflexivity|exact S2].
    + intros ST. rewrite <- (STRICT ST), EN. reflexivity.
Qed.

Definition simple_bind (p : node) : Prop :=
  forall v s s', sim s s' -> ssim s (bind_node E p v s) (bind_node E' p v s').

Lemma sim_positional st pats : Forall simple_bind pats -> forall p s s', sim s s' ->
  osim s (bind_positional (bind_node E) st pats p s) (bind_positional (bind_node E') st pats p s').
Proof.
  induction 1 as [|n pats Hn _ IH]; intros p s s' S; cbn [bind_positional]; [apply osim_ok; [lia|exact S]|].
  destruct n as [a|a|a|a|l|k v]; try (apply IH, S);
    (destruct (is_rest_kw _); [destruct (b_rest_kw p); [apply osim_error|apply IH, S]|]);
    (destruct (is_rest _); [destruct (b_rest p); [apply osim_error|apply IH, S]|]);
    (destruct (next_positional _ _) as [[[n1 rhs] named]|]; [|apply osim_error]);
    (eapply ssim_bind; [apply Hn, S|]); intros s1 s1' S1; apply IH, S1.
Qed.

Lemma positional_nodup {E0} st pats : forall p s p' s1, NoDup (map fst (b_lhs_named p)) -> NoDup (map fst (b_rhs_named p)) ->
  bind_positional (bind_node E0) st pats p s = Ok (p', s1) -> NoDup (map fst (b_lhs_named p')) /\ NoDup (map fst (b_rhs_named p')).
Proof.
  induction pats as [|n pats IH]; intros p s p' s1 NL NR H; cbn [bind_positional] in H; [inversion H; subst; auto|].
  assert (G : match is_rest_kw n, is_rest n with
          | Some a, _ =>
              match b_rest_kw p with
              | Some _ => Err (EErr EBindMultiRest (node_site n))
              | None => bind_positional (bind_node E0) st pats
                          (Progress (b_rhs p) (b_rhs_named p) (b_lhs_named p) (b_rest p) (Some a)) s
              end
          | None, Some a =>
              match b_rest p with
              | Some _ => Err (EErr EBindMultiRest (node_site n))
              | None => bind_positional (bind_node E0) st pats
                          (Progress (b_rhs p) (b_rhs_named p) (b_lhs_named p) (Some a) (b_rest_kw p)) s
              end
          | None, None =>
              match next_positional (b_rhs p) (b_rhs_named p) with
              | None => Err (EErr EBindTooFew st)
              | Some (n1, rhs, named) =>
                  let* s := bind_node E0 n n1 s in
                  bind_positional (bind_node E0) st pats
                    (Progress rhs named (b_lhs_named p) (b_rest p) (b_rest_kw p)) s
              end
          end = Ok (p', s1) -> NoDup (map fst (b_lhs_named p')) /\ NoDup (map fst (b_rhs_named p'))).
  { clear H. destruct (is_rest_kw n), (is_rest n).
    - destruct (b_rest_kw p); [discriminate|]. apply IH; assumption.
    - destruct (b_rest_kw p); [discriminate|]. apply IH; assumption.
    - destruct (b_rest p); [discriminate|]. apply IH; assumption.
    - destruct (next_positional (b_rhs p) (b_rhs_named p)) as [[[n1 rhs] named]|] eqn:NP; [|discriminate].
      destruct (bind_node E0 n n1 s) as [s2| | | |]; cbn [bind]; try discriminate. apply IH; [exact NL|].
      cbn [b_rhs_named]. clear -NP NR. revert NR NP. generalize (b_rhs_named p). induction (b_rhs p) as [|m l IHl]; [discriminate|].
      intros acc NR. cbn. destruct m; intros NP; try (inversion NP; subst; exact NR).
      eapply IHl; [|exact NP]. apply insert_nodup, NR. }
  destruct n as [a|a|a|a|l|k v]; try exact (G H). eapply IH; [| |exact H]; cbn; [apply insert_nodup, NL|exact NR].
Qed.

Lemma sim_list st pats : Forall simple_bind pats -> forall vals s s', sim s s' ->
  ssim s (bind_list E st pats vals s) (bind_list E' st pats vals s').
Proof.
  intros F vals s s' S. unfold bind_list, bind_list_with.
  assert (SD : g_seed (x_world s) = g_seed (x_world s')) by apply (sim_world _ _ S). rewrite <- SD.
  pose proof (sim_positional st pats F (Progress vals [] [] None None) _ _ (sim_new_maps 2 _ _ S)) as H.
  destruct (bind_positional (bind_node E) st pats _ (new_maps 2 s)) as [[p s1]| | | |] eqn:BP; cbn [bind];
    try (intros ST; rewrite (H ST); reflexivity).
  assert (N : NoDup (map fst (b_lhs_named p)) /\ NoDup (map fst (b_rhs_named p)))
    by (eapply positional_nodup; [| |exact BP]; constructor).
  destruct N as [NL NR].
  destruct H as [M H]. cbn [snd new_maps set_world x_world g_ordered] in M, H.
  pose proof (sim_rest (g_seed (x_world s)) p s1 s1 NL NR (sim_refl s1)) as R0.
  assert (HR : strict \/ g_ordered (x_world s1) = g_ordered (x_world s) -> exists s1',
    bind_positional (bind_node E') st pats (Progress vals [] [] None None) (new_maps 2 s') = Ok (p, s1') /\ sim s1 s1').
  { intros C. destruct (H C) as [[p' s1'] [Q [Q1 Q2]]]. cbn in Q1, Q2. subst. eauto. }
  destruct (bind_rest E (g_seed (x_world s)) p s1) as [s2| | | |] eqn:BR; cbn [ssim rel] in R0 |- *.
  - destruct R0 as [M0 _]. split; [lia|]. intros C.
    destruct HR as [s1' [Q S1]]; [destruct C; [auto|right; lia]|]. rewrite Q. cbn [bind].
    pose proof (sim_rest (g_seed (x_world s)) p s1 s1' NL NR S1) as R1. rewrite BR in R1.
    apply R1. destruct C; [auto|right; lia].
  - intros ST. destruct (HR (or_introl ST)) as [s1' [Q S1]]. rewrite Q. cbn [bind].
    pose proof (sim_rest (g_seed (x_world s)) p s1 s1' NL NR S1) as R1. rewrite BR in R1. exact (R1 ST).
  - intros ST. destruct (HR (or_introl ST)) as [s1' [Q S1]]. rewrite Q. cbn [bind].
    pose proof (sim_rest (g_seed (x_world s)) p s1 s1' NL NR S1) as R1. rewrite BR in R1. exact (R1 ST).
  - intros ST. destruct (HR (or_introl ST)) as [s1' [Q S1]]. rewrite Q. cbn [bind].
    pose proof (sim_rest (g_seed (x_world s)) p s1 s1' NL NR S1) as R1. rewrite BR in R1. exact (R1 ST).
  - intros ST. destruct (HR (or_introl ST)) as [s1' [Q S1]]. rewrite Q. cbn [bind].
    pose proof (sim_rest (g_seed (x_world s)) p s1 s1' NL NR S1) as R1. rewrite BR in R1. exact (R1 ST).
Qed.

Lemma sim_node p : simple_bind p.
Proof.
  assert (OK : forall s s', sim s s' -> ssim s (Ok s) (Ok s')).
  { intros s s' S. split; [cbn; lia|]. intros _. eauto. }
  assert (ER : forall k st s, ssim s (Err (EErr k st)) (Err (EErr k st))) by (intros k st s _; reflexivity).
  induction p as [a|a|a|a|pats st ew es w IH|k p st w IH] using node_ind'; intros v s s' S; cbn [bind_node].
  - split; [cbn; lia|]. intros _. eexists. split; [reflexivity|]. apply sim_put_var, S.
  - destruct v; try apply ER. destruct (beq _ _); [apply OK, S|apply ER].
  - destruct v; try apply ER; (destruct (beq _ _); [apply OK, S|apply ER]).
  - destruct v; try apply ER; (destruct (beq _ _); [apply OK, S|apply ER]).
  - destruct v; try apply ER. apply sim_list; assumption.
  - destruct v; try apply ER. destruct (beq _ _); [apply IH, S|apply ER].
Qed.
Lemma sim_bind_list st pats vals s s' : sim s s' ->
  ssim s (bind_list E st pats vals s) (bind_list E' st pats vals s').
Proof. apply sim_list. apply Forall_forall. intros p _. apply sim_node. Qed.

(** Whether a pattern can be bound depends on neither. *)
Lemma bind_fails p v s s' : (exists e, bind_node E p v s = Err e) <-> exists e, bind_node E' p v s' = Err e.
Proof.
  destruct (bind_node_spec E ORDER p) as [A [B C]]. destruct (bind_node_spec E' ORDER' p) as [A' [B' C']].
  split; intros [e H].
  - destruct (C' v s') as [[s1 Q]|[e' Q]]; [|eauto]. destruct (A' _ _ _ Q) as [l [L _]].
    destruct (B v l s L) as [s2 Q2]. congruence.
  - destruct (C v s) as [[s1 Q]|[e' Q]]; [|eauto]. destruct (A _ _ _ Q) as [l [L _]].
    destruct (B' v l s' L) as [s2 Q2]. congruence.
Qed.

(** ** Builtins *)

Section Builtins.
Variables ex ex' : node -> state -> out.
Variables inv inv' : bytes -> call -> list node -> state -> out.
Hypothesis EX : forall n s s', sim s s' -> osim s (ex n s) (ex' n s').
Hypothesis INV : forall name c c' ps s s', c_node c = c_node c' -> sim s s' ->
  osim s (inv name c ps s) (inv' name c' ps s').

Lemma sim_exs ns : forall s s', sim s s' -> osim s (exs ex ns s) (exs ex' ns s').
Proof.
  induction ns as [|n ns IH]; intros s s' S; cbn [exs]; [apply osim_ok; [lia|exact S]|].
  eapply osim_bind; [apply EX, S|]. intros xs s1 s1' S1. cbv beta iota.
  eapply osim_bind; [apply IH, S1|]. intros ys s2 s2' S2. apply osim_ok; [lia|exact S2].
Qed.

Lemma sim_eager {B} rs c c' ps s s' (k k' : args * list node * state -> res (B * state)) :
  c_node c = c_node c' -> sim s s' ->
  (forall x vs s1 s1', sim s1 s1' -> osim s1 (k (x, vs, s1)) (k' (x, vs, s1'))) ->
  osim s (bind (eager ex rs c ps s) k) (bind (eager ex' rs c' ps s') k').
Proof.
  intros C S K. eapply osim_bind.
  - unfold eager. eapply osim_bind; [apply sim_exs, S|]. intros vs s1 s1' S1. cbv beta iota. rewrite <- C.
    apply osim_pure. intros x _. apply osim_ok; [rewrite ordered_touch; lia|]. apply sim_touch, S1.
  - intros [x vs] s1 s1' S1. apply K, S1.
Qed.

Lemma sim_frame {A} (m m' : state -> res (A * state)) s s' :
  (forall s s', sim s s' -> osim s (m s) (m' s')) -> sim s s' -> osim s (in_frame m s) (in_frame m' s').
Proof.
  intros M S. unfold in_frame.
  pose proof (M _ _ (sim_vec (vec_clone (x_vec s)) (vec_clone (x_vec s')) _ _ S)) as H.
  pose proof (sim_world _ _ S) as [_ [_ [_ [SR _]]]].
  destruct (m _) as [[x s1]| | | |]; cbn [bind]; try (intros ST; rewrite (H ST); reflexivity).
  destruct H as [L H]. cbn in L. split; [exact L|]. cbn. intros C.
  destruct (H C) as [[x' s1'] [-> [Q1 Q2]]]. cbn in Q1, Q2. subst. cbn [bind].
  eexists. split; [reflexivity|]. split; cbn; [rewrite (sim_defs _ _ Q2); reflexivity|].
  rewrite SR. clear - S Q2. unfold free_from. sims.
Qed.
Lemma sim_in_frame {A B} (m m' : state -> res (A * state)) s s' (k k' : A * scope * state -> res (B * state)) :
  sim s s' -> (forall s s', sim s s' -> osim s (m s) (m' s')) ->
  (forall x d s1 s1', sim s1 s1' -> osim s1 (k (x, d, s1)) (k' (x, d, s1'))) ->
  osim s (bind (in_frame m s) k) (bind (in_frame m' s') k').
Proof.
  intros S M K. eapply osim_bind; [apply sim_frame; assumption|]. intros [x d] s1 s1' S1. apply K, S1.
Qed.

Lemma sim_create name ps body s s' : sim s s' -> ssim s (create_macro name ps body s) (create_macro name ps body s').
Proof.
  intros S. unfold create_macro.
  assert (OK : ssim s (Ok (set_defs (put name (Macro ps body) (x_defs s)) s)) (Ok (set_defs (put name (Macro ps body) (x_defs s')) s'))).
  { split; [cbn; lia|]. intros _. eexists. split; [reflexivity|]. rewrite (sim_defs _ _ S). apply sim_set_defs, S. }
  destruct (List.filter amp ps) as [|? [|? ?]]; try (intros _; reflexivity);
    (destruct (List.filter ampamp ps) as [|? [|? ?]]; [exact OK|exact OK|intros _; reflexivity]).
Qed.

Ltac simple_sim := repeat first
  [ assumption | apply sim_touch | apply sim_log | apply sim_new_maps | apply sim_set_defs | apply sim_vec ].
Ltac finish := apply osim_ok; [rewrite ?ordered_touch; cbn; rewrite ?ordered_touch; lia|simple_sim].
Ltac step :=
  first
  [ apply osim_error | apply osim_panic
  | match goal with
    | |- osim _ (Ok _) (Ok _) => finish
    | |- osim _ (bind (exs ex _ _) _) _ =>
        eapply osim_bind; [apply sim_exs; simple_sim|intros ? ? ? ?; cbv beta iota]
    | |- osim _ (exs ex _ _) _ => apply sim_exs; simple_sim
    | |- osim _ (bind (ex _ _) _) _ =>
        eapply osim_bind; [apply EX; simple_sim|intros ? ? ? ?; cbv beta iota]
    | |- osim _ (ex _ _) _ => apply EX; simple_sim
    | |- osim _ (inv _ _ _ _) _ => apply INV; simple_sim
    | |- osim _ (bind (eager ex _ _ _ _) _) _ =>
        apply sim_eager; [assumption|simple_sim|intros ? ? ? ? ?; cbv beta iota]
    | |- osim _ (bind (in_frame _ _) _) _ =>
        apply sim_in_frame; [simple_sim|intros ? ? ?|intros ? ? ? ? ?; cbv beta iota]
    | |- osim _ (bind (create_macro _ _ _ _) _) _ =>
        eapply ssim_bind; [apply sim_create; simple_sim|intros ? ? ?]
    | |- osim _ (bind ?r _) (bind ?r _) => apply osim_pure; intros ? _; cbv beta iota
    | |- osim _ (match ?x with _ => _ end) (match ?x with _ => _ end) => destruct x
    end ].

Lemma same_site (c c' : call) : c_node c = c_node c' -> call_site c = call_site c'.
Proof. unfold call_site. congruence. Qed.
Lemma same_ws (c c' : call) : c_node c = c_node c' -> call_ws c = call_ws c'.
Proof. unfold call_ws. congruence. Qed.
Lemma same_here (c c' : call) t : c_node c = c_node c' -> here c t = here c' t.
Proof. unfold here. congruence. Qed.
Ltac sides C := rewrite <- ?(same_site _ _ C), <- ?(same_ws _ _ C), <- ?C.

Definition sim_macro (m m' : call -> list node -> state -> out) : Prop :=
  forall c c' ps s s', c_node c = c_node c' -> sim s s' -> osim s (m c ps s) (m' c' ps s').

Lemma sim_define : sim_macro (do_define ex) (do_define ex').
Proof. intros c c' ps s s' C S. unfold do_define. sides C. repeat step. Qed.
Lemma sim_clauses v cs : forall s s', sim s s' -> osim s (match_clauses E ex v cs s) (match_clauses E' ex' v cs s').
Proof.
  induction cs as [|cl cs IH]; intros s s' S; cbn [match_clauses]; [step|].
  destruct (list_of cl) as [[|p body]|]; try solve [step]. eapply osim_bind; [apply EX, S|]. intros ps s1 s1' S1. cbv beta iota.
  destruct ps as [|q [|? ?]]; try solve [step].
  assert (S2 := sim_vec (vec_clone (x_vec s1)) (vec_clone (x_vec s1')) _ _ S1).
  match goal with |- osim _ (match bind_node E q v ?t with _ => _ end) (match bind_node E' q v ?t' with _ => _ end) =>
    pose proof (bind_fails q v t t') as BF;
    destruct (bind_node_spec E ORDER q) as [_ [_ T]]; destruct (T v t) as [[s2 Q]|[e Q]];
    destruct (bind_node_spec E' ORDER' q) as [_ [_ T']]; destruct (T' v t') as [[s2' Q']|[e' Q']];
    rewrite Q, Q' end.
  - step. 2: step. eapply ssim_bind; [apply sim_node; simple_sim|]. intros s4 s4' S4. step.
  - destruct BF as [_ BF]. destruct BF as [? BF]; [eauto|congruence].
  - destruct BF as [BF _]. destruct BF as [? BF]; [eauto|congruence].
  - apply IH, S1.
Qed.
Lemma sim_match : sim_macro (do_match E ex) (do_match E' ex').
Proof. intros c c' ps s s' C S. unfold do_match. sides C. repeat step. apply sim_clauses; assumption. Qed.
Lemma sim_ifdef : sim_macro (do_ifdef ex) (do_ifdef ex').
Proof.
  intros c c' ps s s' C S. unfold do_ifdef. sides C. cbv zeta.
  assert (G : forall cond yes no, osim s
    match atomic cond with
    | Some a =>
        let* '(ns, s0) := if defined (a_val a) (x_defs s) then ex yes s
                          else match no with Some alt => ex alt s | None => Ok ([], s) end in
        match ns with [] => Ok ([], s0) | _ :: _ => Ok (set_first_ws (call_ws c) ns, touch c s0) end
    | None => error EIfdef (node_site cond) end
    match atomic cond with
    | Some a =>
        let* '(ns, s0) := if defined (a_val a) (x_defs s') then ex' yes s'
                          else match no with Some alt => ex' alt s' | None => Ok ([], s') end in
        match ns with [] => Ok ([], s0) | _ :: _ => Ok (set_first_ws (call_ws c) ns, touch c' s0) end
    | None => error EIfdef (node_site cond) end).
  { intros cond yes no. destruct (atomic cond); [|step]. rewrite <- (sim_defs _ _ S). eapply osim_bind.
    - destruct (defined _ _); [step|]. destruct no; step.
    - intros ns s1 s1' S1. destruct ns; step. }
  destruct ps as [|cond [|yes [|no [|? ?]]]]; try solve [step]; [apply (G cond yes None)|apply (G cond yes (Some no))].
Qed.
Lemma sim_do : sim_macro (do_do ex) (do_do ex').
Proof. intros c c' ps s s' C S. unfold do_do. step. Qed.
Lemma same_search sex path dirs : search_file E' sex dirs path = search_file E sex dirs path.
Proof. induction dirs as [|d dirs IH]; [reflexivity|]. cbn [search_file]. rewrite IH. reflexivity. Qed.
Lemma sim_include : sim_macro (do_include E ex) (do_include E' ex').
Proof.
  intros c c' ps s s' C S. unfold do_include. sides C. eapply osim_bind; [apply sim_exs, S|].
  intros vs s1 s1' S1. cbv beta iota. destruct vs as [|n [|? ?]]; try solve [step]. destruct (atomic n) as [a|]; [|step].
  rewrite same_search. change (e_includes E') with (e_includes E). change (e_unescape E') with (e_unescape E).
  destruct (search_file E true (e_includes E) (a_val a)) as [[path text]|]; [|step]. unfold add_source.
  pose proof (sim_world _ _ S1) as [_ [_ [_ [SR _]]]]. rewrite <- SR.
  destruct (parse (e_unescape E) _ text) as [tree| | | |]; try (intros ST; reflexivity).
  apply (osim_from s1 (snd (add_source path text s1))); [reflexivity|].
  eapply osim_bind.
  - apply sim_exs. clear SR. unfold add_source. cbn. sims.
  - intros ns s2 s2' S2. cbv beta iota. destruct ns; step.
Qed.
Lemma sim_embed : sim_macro (do_embed E ex) (do_embed E' ex').
Proof.
  intros c c' ps s s' C S. unfold do_embed. sides C. eapply osim_bind; [apply sim_exs, S|].
  intros vs s1 s1' S1. cbv beta iota. destruct vs as [|n [|? ?]]; try solve [step]. destruct (atomic n) as [a|]; [|step].
  rewrite same_search. change (e_includes E') with (e_includes E).
  destruct (search_file E false (e_includes E) (a_val a)) as [[path text]|]; [|step]. rewrite <- (same_here _ _ _ C). step.
Qed.

Ltac heres C := repeat match goal with |- context [here ?c' ?t] =>
  match type of C with c_node ?c = c_node c' => rewrite <- (same_here c c' t C) end end.

Lemma same_yaml text sep st d : expand_yaml E' text sep st d = expand_yaml E text sep st d.
Proof. reflexivity. Qed.
Lemma same_toml text sep st d : expand_toml E' text sep st d = expand_toml E text sep st d.
Proof. reflexivity. Qed.
Lemma sim_front c c' a sep s s' : c_node c = c_node c' -> sim s s' ->
  osim s (frontmatter E c a sep s) (frontmatter E' c' a sep s').
Proof.
  intros C S. unfold frontmatter. sides C. change (e_front E') with (e_front E). rewrite <- (sim_defs _ _ S).
  destruct (e_front E (a_val a)) as [[text|text|]|]; try solve [step].
  - rewrite same_yaml. apply osim_pure. intros [r d] _. step.
  - rewrite same_toml. destruct (expand_toml _ _ _ _ _) as [r d]. step.
Qed.
Lemma sim_markdown : sim_macro (do_markdown E ex) (do_markdown E' ex').
Proof.
  intros c c' ps s s' C S. unfold do_markdown. apply sim_eager; [exact C|exact S|].
  intros x vs s1 s1' S1. do 3 (apply osim_pure; intros ? _). cbv zeta. change (e_html E') with (e_html E).
  assert (H : forall s1 s1', sim s1 s1' -> osim s1
    (let* ns := match e_html E (a_val x0) with Some html => Ok [Raw (here c html)] | None => error EMarkdown (a_site x0) end in Ok (ns, touch c s1))
    (let* ns := match e_html E (a_val x0) with Some html => Ok [Raw (here c' html)] | None => error EMarkdown (a_site x0) end in Ok (ns, touch c' s1'))).
  { intros s2 s2' S2. destruct (e_html E (a_val x0)); [|intros _; reflexivity]. heres C. cbn [bind]. finish. }
  destruct (option_map a_val x1) as [w|].
  - destruct (beq w (b "frontmatter")).
    + eapply osim_bind; [apply sim_front; eassumption|]. intros r s2 s2' S2. cbv beta iota. apply osim_pure. intros ? _. finish.
    + destruct (beq w (b "content")); [|step]. apply H, S1.
  - eapply osim_bind; [apply sim_front; eassumption|]. intros r s2 s2' S2. cbv beta iota. apply H, S2.
Qed.
Lemma sim_yaml : sim_macro (do_yaml E ex) (do_yaml E' ex').
Proof.
  intros c c' ps s s' C S. unfold do_yaml. sides C. apply sim_eager; [exact C|exact S|].
  intros x vs s1 s1' S1. do 2 (apply osim_pure; intros ? _). rewrite <- (sim_defs _ _ S1), same_yaml.
  apply osim_pure. intros [r d] _. apply osim_pure. intros ns _. step.
Qed.
Lemma sim_toml : sim_macro (do_toml E ex) (do_toml E' ex').
Proof.
  intros c c' ps s s' C S. unfold do_toml. sides C. apply sim_eager; [exact C|exact S|].
  intros x vs s1 s1' S1. do 2 (apply osim_pure; intros ? _). rewrite <- (sim_defs _ _ S1), same_toml.
  destruct (expand_toml _ _ _ _ _) as [r d]. apply osim_pure. intros ns _. step.
Qed.
Lemma sim_get : sim_macro (do_get ex) (do_get ex').
Proof. intros c c' ps s s' C S. unfold do_get. repeat step. Qed.
Lemma sim_date : sim_macro (do_date E ex) (do_date E' ex').
Proof.
  intros c c' ps s s' C S. unfold do_date. sides C. apply sim_eager; [exact C|exact S|]. intros x vs s1 s1' S1.
  change (timezone E') with (timezone E). change (e_time_ok E') with (e_time_ok E). change (e_date E') with (e_date E).
  do 5 step. destruct (east_ok _); [|step]. destruct (e_date E _ _ _); [|step]. heres C. step.
Qed.
Lemma sim_timestamp : sim_macro (do_timestamp E ex) (do_timestamp E' ex').
Proof.
  intros c c' ps s s' C S. unfold do_timestamp. sides C. apply sim_eager; [exact C|exact S|]. intros x vs s1 s1' S1.
  change (timezone E') with (timezone E). change (e_time_ok E') with (e_time_ok E).
  change (e_parse_date E') with (e_parse_date E). change (e_parse_naive E') with (e_parse_naive E).
  do 4 step. destruct (east_ok _); [|step]. step. heres C. step.
Qed.
Lemma sim_log_macro : sim_macro (do_log ex) (do_log ex').
Proof. intros c c' ps s s' C S. unfold do_log. sides C. repeat step. Qed.
Lemma sim_env : sim_macro (do_env E ex) (do_env E' ex').
Proof. intros c c' ps s s' C S. unfold do_env. sides C. change (e_getenv E') with (e_getenv E). repeat step. Qed.
Lemma sim_format : sim_macro (do_format E ex) (do_format E' ex').
Proof.
  intros c c' ps s s' C S. unfold do_format. sides C. change (e_template E') with (e_template E).
  change (e_format E') with (e_format E). step. destruct x as [|[] ?]; try solve [step]. destruct (e_template E _); [|step].
  destruct (format_args _); [|step]. destruct (e_format E _ _); [|step]. heres C. step.
Qed.
Lemma sim_namespace : sim_macro (do_namespace E ex) (do_namespace E' ex').
Proof.
  intros c c' ps s s' C S. unfold do_namespace. sides C. apply sim_in_frame; [exact S|intros; step|].
  intros ns d s1 s1' S1. destruct ns as [|name ns]; [step|]. destruct (atomic name) as [a|]; [|step].
  apply osim_pure. intros [sep body] _. apply osim_ok; [cbn; lia|]. rewrite <- (sim_defs _ _ S1).
  replace (copy_prefixed (a_val a ++ sep) (e_order E' (g_seed (x_world s1')) (scope_names d)) d (x_defs s1))
     with (copy_prefixed (a_val a ++ sep) (e_order E (g_seed (x_world s1)) (scope_names d)) d (x_defs s1)); [simple_sim|].
  apply (imported_fun (a_val a ++ sep) d (x_defs s1)); apply copy_imported; [apply ORDER|apply ORDER'].
Qed.
Lemma sim_for_each p body items : forall s s', sim s s' ->
  osim s (for_each E ex p items body s) (for_each E' ex' p items body s').
Proof.
  induction items as [|i items IH]; intros s s' S; cbn [for_each]; [step|].
  eapply ssim_bind; [apply sim_node, S|]. intros s1 s1' S1.
  eapply osim_bind; [apply sim_exs, S1|]. intros xs s2 s2' S2. cbv beta iota.
  eapply osim_bind; [apply IH, S2|]. intros ys s3 s3' S3. step.
Qed.
Lemma sim_for : sim_macro (do_for E ex) (do_for E' ex').
Proof.
  intros c c' ps s s' C S. unfold do_for. sides C. step.
  apply (osim_from _ (touch c s)); [symmetry; apply ordered_touch|]. do 4 step. step.
  - apply sim_for_each. assumption.
  - step.
Qed.
Lemma sim_glob : sim_macro (do_glob E ex) (do_glob E' ex').
Proof. intros c c' ps s s' C S. unfold do_glob. change (e_glob E') with (e_glob E). change (@glob_collect E') with (@glob_collect E). cbv zeta. repeat step. Qed.
Lemma sim_text make k : sim_macro (do_text ex make k) (do_text ex' make k).
Proof. intros c c' ps s s' C S. unfold do_text. step. destruct (atoms _); [heres C|]; step. Qed.
Lemma sim_convert make : sim_macro (do_convert ex make) (do_convert ex' make).
Proof. intros c c' ps s s' C S. unfold do_convert. repeat step. Qed.
Lemma sim_reverse : sim_macro (do_reverse ex) (do_reverse ex').
Proof. intros c c' ps s s' C S. unfold do_reverse. repeat step. Qed.
Lemma sim_keys name c c' kst ns : c_node c = c_node c' -> forall s s', sim s s' ->
  osim s (sort_keys inv name c kst ns s) (sort_keys inv' name c' kst ns s').
Proof.
  intros C. induction ns as [|n ns IH]; intros s s' S; cbn [sort_keys]; [step|].
  eapply osim_bind.
  - pose proof (INV name c c' [n] s s' C S) as H. destruct (inv name c [n] s) as [[xs s1]| | | |].
    + destruct H as [M H]. split; [exact M|]. intros Q. destruct (H Q) as [x' [-> P]]. eauto.
    + intros ST. rewrite (H ST). reflexivity.
    + intros ST. rewrite (H ST). reflexivity.
    + intros ST. rewrite (H ST). reflexivity.
    + intros ST. rewrite (H ST). reflexivity.
  - intros key s1 s1' S1. destruct key as [|k [|? ?]]; try solve [step]. destruct (atomic k); [|step].
    eapply osim_bind; [apply IH, S1|]. intros items s2 s2' S2. step.
Qed.
Lemma sim_sort : sim_macro (do_sort E ex inv) (do_sort E' ex' inv').
Proof.
  intros c c' ps s s' C S. unfold do_sort. sides C. cbv zeta. change (key_cmp E') with (key_cmp E). change (@sort_by (bytes * node) E') with (@sort_by (bytes * node) E). do 4 step. cbv zeta. destruct x0; try solve [step].
  eapply osim_bind; [apply sim_keys; eassumption|]. intros items s2 s2' S2. cbv beta iota. step. step.
Qed.
Lemma sim_join : sim_macro (do_join ex) (do_join ex').
Proof. intros c c' ps s s' C S. unfold do_join. do 4 step. cbv zeta. heres C. step. Qed.
Lemma sim_concat : sim_macro (do_concat ex) (do_concat ex').
Proof. intros c c' ps s s' C S. unfold do_concat. do 2 step. heres C. step. Qed.
Lemma sim_map_each d name c c' ns : c_node c = c_node c' -> forall s s', sim s s' ->
  osim s (map_each inv d name c ns s) (map_each inv' d name c' ns s').
Proof.
  intros C. induction ns as [|n ns IH]; intros s s' S; cbn [map_each]; [step|].
  eapply osim_bind; [apply INV; assumption|]. intros xs s1 s1' S1. cbv beta iota.
  eapply osim_bind; [apply IH, S1|]. intros ys s2 s2' S2. step.
Qed.
Lemma sim_map d : sim_macro (do_map ex inv d) (do_map ex' inv' d).
Proof. intros c c' ps s s' C S. unfold do_map. do 3 step. apply sim_map_each; assumption. Qed.
Lemma sim_splat : sim_macro (do_splat ex) (do_splat ex').
Proof. intros c c' ps s s' C S. unfold do_splat. repeat step. Qed.
Lemma sim_list_macro : sim_macro (do_list ex) (do_list ex').
Proof. intros c c' ps s s' C S. unfold do_list. sides C. repeat step. Qed.
Lemma sim_strip : sim_macro (do_strip ex) (do_strip ex').
Proof. intros c c' ps s s' C S. unfold do_strip. repeat step. Qed.
Lemma sim_apply : sim_macro (do_apply ex inv) (do_apply ex' inv').
Proof. intros c c' ps s s' C S. unfold do_apply. repeat step. Qed.
Lemma sim_uuid s s' st : sim s s' -> uuid E' s' st = uuid E s st.
Proof. intros S. unfold uuid. destruct (sim_world _ _ S) as [_ [_ [_ [-> _]]]]. reflexivity. Qed.
Lemma sim_lambda : sim_macro (do_lambda E) (do_lambda E').
Proof.
  intros c c' ps s s' C S. unfold do_lambda. sides C. do 4 step. cbv zeta. rewrite (sim_uuid s s' _ S).
  apply (osim_from _ (touch c s)); [symmetry; apply ordered_touch|]. step. heres C. step.
Qed.
Lemma sim_apply_macro m c c' ps s s' : c_node c = c_node c' -> sim s s' ->
  osim s (apply_macro E ex m c ps s) (apply_macro E' ex' m c' ps s').
Proof.
  intros C S. unfold apply_macro. sides C. step.
  - eapply ssim_bind; [apply sim_bind_list; assumption|]. intros s2 s2' S2. step.
  - step.
Qed.
Lemma sim_call name : sim_macro (call_macro E ex name) (call_macro E' ex' name).
Proof.
  intros c c' ps s s' C S. unfold call_macro. sides C. eapply osim_bind; [apply sim_exs, S|].
  intros vs s1 s1' S1. cbv beta iota. rewrite <- (sim_defs _ _ S1). destruct (get _ _); [|step].
  apply sim_apply_macro; assumption.
Qed.
Lemma sim_invoke name : sim_macro (invoke E ex inv name) (invoke E' ex' inv' name).
Proof.
  unfold invoke. destruct (find_builtin name) as [m|]; [|apply sim_call].
  destruct m; cbn [run_builtin]; auto using sim_define, sim_match, sim_ifdef, sim_do, sim_get, sim_text, sim_convert,
    sim_include, sim_embed, sim_namespace, sim_markdown, sim_yaml, sim_toml, sim_glob, sim_for, sim_sort, sim_reverse,
    sim_date, sim_timestamp, sim_join, sim_concat, sim_map, sim_splat, sim_list_macro, sim_strip, sim_apply, sim_lambda,
    sim_log_macro, sim_format, sim_env.
Qed.
Lemma sim_one n s s' : sim s s' -> osim s (expand_one ex inv n s) (expand_one ex' inv' n s').
Proof.
  intros S. unfold expand_one. destruct n as [a|a|a|a|[|head tail] st ew es w|k v st w]; try solve [step].
  - destruct (starts_with _ _); [|step]. rewrite <- (sim_defs _ _ S). repeat step.
  - assert (P : forall s s', sim s s' -> osim s (let* '(ns, s) := exs ex (head :: tail) s in Ok ([Lst ns st ew es w], s))
        (let* '(ns, s) := exs ex' (head :: tail) s' in Ok ([Lst ns st ew es w], s))).
    { intros s1 s1' S1. repeat step. }
    destruct (symbol head); [|apply P, S].
    unfold register. cbv zeta. apply (osim_from s (snd (register (Lst (head :: tail) st ew es w) s))); [reflexivity|].
    destruct (starts_with _ _); [apply INV; [reflexivity|]|apply P]; apply sim_vec, S.
  - repeat step.
Qed.
End Builtins.

Lemma sim_run f : forall t t' s s',
  match t, t' with
  | TNode n, TNode n' => n = n'
  | TInvoke name c ps, TInvoke name' c' ps' => name = name' /\ c_node c = c_node c' /\ ps = ps'
  | _, _ => False
  end -> sim s s' -> osim s (run E f t s) (run E' f t' s').
Proof.
  induction f as [|f IH]; intros t t' s s' T S; [intros _; reflexivity|].
  destruct t as [n|name c ps], t' as [n'|name' c' ps']; try contradiction; cbn [run].
  - subst n'. apply sim_one; [| |exact S].
    + intros m s1 s1' S1. apply IH; [reflexivity|exact S1].
    + intros name c c' ps s1 s1' C S1. apply IH; [auto|exact S1].
  - destruct T as [-> [C ->]]. apply sim_invoke; [| |exact C|exact S].
    + intros m s1 s1' S1. apply IH; [reflexivity|exact S1].
    + intros name c0 c0' ps s1 s1' C0 S1. apply IH; [auto|exact S1].
Qed.
End Sim.
