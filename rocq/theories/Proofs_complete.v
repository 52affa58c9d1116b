(** * The rules of the language and the expander, other direction

    What follows from the rules is done by the expander under some order of
    hash maps. *)

From Coq Require Import String List Ascii Bool Arith NArith ZArith Lia Permutation.
From Verif Require Import Text Res Ast Env Scope State Bind Data Sorting Numbers Paths Parser
  Spec_args Spec_expand Spec_builtin Spec_bind Spec_control Spec_scope Spec_sort Spec_world Spec_errors Spec_order
  Spec_lang Proofs_text Proofs_ast Proofs_run Proofs_eval Proofs_args Proofs_builtin Proofs_simple Proofs_bind
  Proofs_control Proofs_more Proofs_get Proofs_scope Proofs_sort Proofs_extra Proofs_errors Proofs_data
  Proofs_outcomes Proofs_import Proofs_strict Proofs_lang Proofs_realise.
From Verif Require Spec_keep Proofs_place.
From Verif Require Import Args Expander Spec_lang.
Import ListNotations.

Definition comp (A : Type) : Type := env -> nat -> state -> res (A * state).

(** [o'] agrees with [o] on all hash maps made between [s] and the end. *)
Definition agrees {A} (s : state) (r : res (A * state)) (o o' : orders) : Prop :=
  match r with
  | Ok (_, s1) => agree (seed_of s) (seed_of s1) o o'
  | _ => agree_from (seed_of s) o o'
  end.
Definition rising {A} (s : state) (r : res (A * state)) : Prop :=
  match r with Ok (_, s1) => seed_of s <= seed_of s1 | _ => True end.

Section WithEnv.
Variable E : env.
Hypothesis TEXT : Spec_keep.reads_text E.

(** In context [c], under some order, computation [m] has outcome [q]. *)
Definition realises {A} (m : comp A) (c : context) (q : res (A * context)) : Prop :=
  forall s, visible s = c -> exists o r, perm o /\ view r = q /\ rising s r /\
    forall o', perm o' -> agrees s r o o' -> settles (fun f => m (with_order o' E) f s) r.

(** ** Combinators *)

Lemma settle_seq {A B} (m : nat -> res A) (k : nat -> A -> res B) x r :
  settles m (Ok x) -> settles (fun f => k f x) r -> settles (fun f => bind (m f) (k f)) r.
Proof.
  intros [_ [f F]] [N [g G]]. split; [exact N|]. exists (Nat.max f g). intros h L.
  rewrite F by lia. cbn [bind]. apply G. lia.
Qed.
Lemma settle_fail {A B} (m : nat -> res A) (k : nat -> A -> res B) q r :
  settles m q -> fails q r -> settles (fun f => bind (m f) (k f)) r.
Proof.
  intros [N [f F]] X. destruct q; cbn in X; try contradiction; subst;
    (split; [discriminate|]; exists f; intros h L; rewrite F by lia; reflexivity).
Qed.

Lemma realises_ext {A} (m m' : comp A) c q :
  (forall o f s, visible s = c -> perm o -> m (with_order o E) f s = m' (with_order o E) f s) ->
  realises m' c q -> realises m c q.
Proof.
  intros X H s V. destruct (H s V) as [o [r [P [Q [R S]]]]]. exists o, r. repeat (split; [assumption|]).
  intros o' P' A'. exact (proj2 (settles_ext _ _ r (fun f => X o' f s V P')) (S o' P' A')).
Qed.

Lemma realises_S {A} (m m' : comp A) c q :
  (forall o f s, m (with_order o E) (S f) s = m' (with_order o E) f s) ->
  realises m' c q -> realises m c q.
Proof.
  intros X H s V. destruct (H s V) as [o [r [P [Q [R S]]]]]. exists o, r. repeat (split; [assumption|]).
  intros o' P' A'. destruct (S o' P' A') as [N [f F]]. split; [exact N|]. exists (Datatypes.S f).
  intros [|g] L; [lia|]. rewrite X. apply F. lia.
Qed.

Lemma realises_now {A} (m : comp A) c q :
  (forall s, visible s = c -> exists r, view r = q /\ r <> OutOfFuel /\ rising s r /\
     forall o f, perm o -> m (with_order o E) f s = r) -> realises m c q.
Proof.
  intros H s V. destruct (H s V) as [r [Q [N [R X]]]]. exists (fun _ l => l), r. split; [apply perm_id|].
  split; [exact Q|]. split; [exact R|]. intros o' P' _. split; [exact N|]. exists 0. intros f _. apply X, P'.
Qed.
Lemma realises_ret {A} (x : A) (g : state -> state) c c1 :
  (forall s, visible s = c -> visible (g s) = c1) -> (forall s, seed_of (g s) = seed_of s) ->
  realises (fun _ _ s => Ok (x, g s)) c (Ok (x, c1)).
Proof.
  intros G L. apply realises_now. intros s V. exists (Ok (x, g s)). split; [cbn; rewrite (G s V); reflexivity|].
  split; [discriminate|]. split; [|reflexivity]. cbn. rewrite L. lia.
Qed.
Lemma realises_err {A} (m : comp A) c e :
  (forall o f s, visible s = c -> perm o -> m (with_order o E) f s = Err e) -> realises m c (Err e).
Proof.
  intros H. apply realises_now. intros s V. exists (Err e). split; [reflexivity|]. split; [discriminate|].
  split; [exact I|]. intros o f P. apply H; assumption.
Qed.

Lemma realises_bind {A B} (m : comp A) (k : A -> comp B) c x c1 q :
  realises m c (Ok (x, c1)) -> realises (k x) c1 q ->
  realises (fun E f s => let* '(x, s) := m E f s in k x E f s) c q.
Proof.
  intros H K s V. destruct (H s V) as [o1 [r1 [P1 [Q1 [R1 S1]]]]].
  destruct r1 as [[y s1]| | | |]; try discriminate. cbn in Q1. inversion Q1; subst y c1. clear Q1.
  destruct (K s1 eq_refl) as [o2 [r2 [P2 [Q2 [R2 S2]]]]]. cbn in R1.
  exists (joined (seed_of s1) o1 o2), r2. split; [apply perm_joined; assumption|]. split; [exact Q2|].
  split; [destruct r2 as [[z s2]| | | |]; cbn in *; auto; lia|].
  intros o' P' A'. eapply settle_seq.
  - apply S1; [exact P'|]. cbn. destruct r2 as [[z s2]| | | |]; cbn in A', R2;
      [eapply agree_left; [|exact A']; exact R2|eapply agree_from_left, A'..].
  - apply S2; [exact P'|]. destruct r2 as [[z s2]| | | |]; cbn in *;
      [eapply agree_right; [|exact A']; exact R1|eapply agree_from_right; [|exact A']; exact R1..].
Qed.

Lemma realises_fails {A B} (m : comp A) (k : A -> comp B) c q r :
  realises m c q -> fails q r ->
  realises (fun E f s => let* '(x, s) := m E f s in k x E f s) c r.
Proof.
  intros H F s V. destruct (H s V) as [o [r1 [P [Q [R S]]]]].
  assert (X : exists r2 : res (B * state), fails r1 r2 /\ view r2 = r).
  { destruct r1 as [[y s1]|e|p| |]; cbn in Q; subst q; cbn in F; try contradiction; subst r;
      [exists (Err e)|exists (Panic p)|exists Hang]; split; reflexivity. }
  destruct X as [r2 [F2 V2]]. exists o, r2. split; [exact P|]. split; [exact V2|].
  assert (Z : forall y, r2 <> Ok y) by (intros y ->; destruct r1 as [[? ?]| | | |]; cbn in F2; congruence).
  assert (W : forall y, r1 <> Ok y) by (intros y ->; exact F2).
  split; [destruct r2 as [[? ?]| | | |]; try exact I; exfalso; eapply Z; reflexivity|].
  intros o' P' A'. eapply settle_fail; [|exact F2]. apply S; [exact P'|].
  destruct r1 as [[? ?]| | | |]; [exfalso; eapply W; reflexivity|..];
    (destruct r2 as [[? ?]| | | |]; [exfalso; eapply Z; reflexivity|..]; exact A').
Qed.

(** Pure steps before and after a computation. *)
Definition after {A B} (r : res (A * state)) (r' : res (B * state)) : Prop :=
  match r, r' with
  | OutOfFuel, _ => True
  | _, OutOfFuel => False
  | Ok (_, s1), Ok (_, s2) => seed_of s2 = seed_of s1
  | _, Ok _ => False
  | _, _ => True
  end.
Lemma realises_map {A B} (m : comp A) (h : state -> state) (g : state -> res (A * state) -> res (B * state)) c c1 q q' :
  realises m c1 q ->
  (forall s, visible s = c -> visible (h s) = c1) -> (forall s, seed_of (h s) = seed_of s) ->
  (forall s r, visible s = c -> view r = q -> view (g s r) = q') -> (forall s r, after r (g s r)) ->
  realises (fun E f s => g s (m E f (h s))) c q'.
Proof.
  intros H V1 L G X s V. destruct (H (h s) (V1 s V)) as [o [r [P [Q [R S]]]]].
  exists o, (g s r). split; [exact P|]. split; [apply G; assumption|].
  specialize (X s r). split.
  { destruct r as [[y s1]| | | |], (g s _) as [[z s2]| | | |] eqn:Z; cbn in X |- *; try exact I; try contradiction.
    - cbn in R. rewrite L in R. lia.
    - exfalso. destruct (S o P) as [NN _]; [cbn; apply agree_from_refl|congruence]. }
  intros o' P' A'.
  assert (SS : settles (fun f => m (with_order o' E) f (h s)) r).
  { apply S; [exact P'|]. unfold agrees in *. rewrite L.
    destruct r as [[y s1]| | | |], (g s _) as [[z s2]| | | |] eqn:Z; cbn in X; try contradiction; try exact A';
      try (intros i l I1 I2; apply A'; lia); try (rewrite <- X; exact A').
    exfalso. destruct (S o P) as [NN _]; [cbn; apply agree_from_refl|congruence]. }
  destruct SS as [N [f F]]. split.
  - intros O. rewrite O in X. destruct r as [[? ?]| | | |]; cbn in X; congruence.
  - exists f. intros f' I. rewrite F by exact I. reflexivity.
Qed.

Lemma realises_from {A} (m : comp A) (h : state -> state) c c1 q :
  realises m c1 q -> (forall s, visible s = c -> visible (h s) = c1) -> (forall s, seed_of (h s) = seed_of s) ->
  realises (fun E f s => m E f (h s)) c q.
Proof.
  intros H V L. apply (realises_map m h (fun _ r => r) c c1 q q H V L); auto.
  intros s r. destruct r as [[? ?]| | | |]; cbn; auto.
Qed.
Lemma realises_changed (m : comp (list node)) fn (g : list node -> state -> state) c q :
  realises m c q -> (forall ns s, visible (g ns s) = visible s) -> (forall ns s, seed_of (g ns s) = seed_of s) ->
  realises (fun E f s => let* '(ns, s) := m E f s in Ok (fn ns, g ns s)) c (changed fn q).
Proof.
  intros H V L. apply (realises_map m (fun s => s) (fun _ r => let* '(ns, s) := r in Ok (fn ns, g ns s)) c c q); auto.
  - intros s r _ <-. destruct r as [[ns s1]| | | |]; try reflexivity. cbn. rewrite V. reflexivity.
  - intros s r. destruct r as [[ns s1]| | | |]; cbn; auto.
Qed.
Lemma realises_frame (m : comp (list node)) c q :
  realises m c q ->
  realises (fun E f s => let* '(ns, _, s1) := in_frame (m E f) s in Ok (ns, s1)) c (within c q).
Proof.
  intros H.
  apply (realises_ext _ (fun E f s =>
    (fun s r => let* '(x, s1) := r in
       Ok (x, State (x_defs s) (x_vec s) (free_from (length (g_sources (x_world s))) (x_world s1)))) s
      (m E f (State (x_defs s) (vec_clone (x_vec s)) (x_world s))))).
  { intros o f s _ _. unfold in_frame. destruct (m _ _ _) as [[x s1]| | | |]; reflexivity. }
  apply (realises_map m (fun s => State (x_defs s) (vec_clone (x_vec s)) (x_world s))
    (fun s r => let* '(x, s1) := r in
       Ok (x, State (x_defs s) (x_vec s) (free_from (length (g_sources (x_world s))) (x_world s1)))) c c q).
  - exact H.
  - intros s V. exact V.
  - reflexivity.
  - intros s r V <-. destruct r as [[ns s1]| | | |]; try reflexivity. cbn. rewrite <- V. reflexivity.
  - intros s r. destruct r as [[ns s1]| | | |]; cbn; auto.
Qed.

(** ** Bindings *)

Definition then_tt (r : res state) : res (unit * state) := let* s := r in Ok (tt, s).

Lemma realises_binds p v l c : binds p v l ->
  realises (fun E f s => then_tt (bind_node E p v s)) c (Ok (tt, with_defs (assign l (k_defs c)) c)).
Proof.
  intros B s <-. destruct (node_attainable E p v l B s) as [o [s1 [P [D [[_ [G [S _]]] [L A]]]]]].
  exists o, (Ok (tt, s1)). split; [exact P|]. split.
  { cbn. unfold visible, with_defs. cbn. rewrite D, G, S. reflexivity. }
  split; [exact L|]. intros o' P' A'. split; [discriminate|]. exists 0. intros f _. rewrite A by assumption. reflexivity.
Qed.
Lemma realises_args st ps vs l c : binds_list ps vs l ->
  realises (fun E f s => then_tt (bind_list E st ps vs s)) c (Ok (tt, with_defs (assign l (k_defs c)) c)).
Proof.
  intros B s <-. destruct (args_attainable E st ps vs l B s) as [o [s1 [P [D [[_ [G [S _]]] [L A]]]]]].
  exists o, (Ok (tt, s1)). split; [exact P|]. split.
  { cbn. unfold visible, with_defs. cbn. rewrite D, G, S. reflexivity. }
  split; [exact L|]. intros o' P' A'. split; [discriminate|]. exists 0. intros f _. rewrite A by assumption. reflexivity.
Qed.
Lemma realises_blamed (m : env -> state -> res state) k st c : blamed E m k st ->
  realises (fun E f s => then_tt (m E s)) c (Err (EErr k st)).
Proof.
  intros B s _. destruct (B s) as [o [P A]]. exists o, (Err (EErr k st)). split; [exact P|]. split; [reflexivity|].
  split; [exact I|]. intros o' P' A'. split; [discriminate|]. exists 0. intros f _. rewrite A by assumption. reflexivity.
Qed.
Lemma bind_tt {A} (r : res state) (k : state -> res A) : bind r k = let* '(_, s) := then_tt r in k s.
Proof. destruct r; reflexivity. Qed.

Lemma realises_into {A} (m : env -> state -> res state) (k : comp A) c c1 q :
  realises (fun E f s => then_tt (m E s)) c (Ok (tt, c1)) -> realises k c1 q ->
  realises (fun E f s => let* s := m E s in k E f s) c q.
Proof.
  intros H K. apply (realises_ext _ (fun E f s => let* '(_, s) := then_tt (m E s) in k E f s)).
  { intros. apply bind_tt. }
  exact (realises_bind _ (fun _ => k) c tt c1 q H K).
Qed.
Lemma realises_not_into {A} (m : env -> state -> res state) (k : comp A) c e :
  realises (fun E f s => then_tt (m E s)) c (Err e) ->
  realises (fun E f s => let* s := m E s in k E f s) c (Err e).
Proof.
  intros H. apply (realises_ext _ (fun E f s => let* '(_, s) := then_tt (m E s) in k E f s)).
  { intros. apply bind_tt. }
  eapply (realises_fails _ (fun _ => k)); [exact H|reflexivity].
Qed.

(** ** The rules *)

Local Notation ex := (fun E f => fun n s => run E f (TNode n) s).
Local Notation inv := (fun E f => fun name c ps s => run E f (TInvoke name c ps) s).

Definition a_node (n : node) : comp (list node) := fun E f s => run E f (TNode n) s.
Definition a_list (ns : list node) : comp (list node) := fun E f s => exs (ex E f) ns s.
Definition a_call (name : bytes) (c : call) (ps : list node) : comp (list node) :=
  fun E f s => run E f (TInvoke name c ps) s.

Lemma call_of name cl ps (m : builtin) c q : find_builtin name = Some m ->
  realises (fun E f s => run_builtin E (ex E f) (inv E f) m cl ps s) c q -> realises (a_call name cl ps) c q.
Proof.
  intros F. apply realises_S. intros o f s. unfold a_call. cbn [run]. unfold invoke. rewrite F. reflexivity.
Qed.
Lemma call_user name cl ps c q : ~ reserved name ->
  realises (fun E f s => call_macro E (ex E f) name cl ps s) c q -> realises (a_call name cl ps) c q.
Proof.
  intros F. apply find_reserved in F. apply realises_S. intros o f s. unfold a_call. cbn [run]. unfold invoke. rewrite F. reflexivity.
Qed.
Lemma node_one n c q :
  realises (fun E f s => expand_one (ex E f) (inv E f) n s) c q -> realises (a_node n) c q.
Proof. apply realises_S. reflexivity. Qed.

Definition P_means (n : node) (c : context) (q : result) : Prop := realises (a_node n) c q.
Definition P_all (ns : list node) (c : context) (q : result) : Prop := realises (a_list ns) c q.
Definition P_runs (name : bytes) (n : node) (ps : list node) (c : context) (q : result) : Prop :=
  forall cl, c_node cl = n -> realises (a_call name cl ps) c q.
Definition P_clauses (v : node) (cs : list node) (c : context) (q : result) : Prop :=
  realises (fun E f s => match_clauses E (ex E f) v cs s) c q.
Definition P_rounds (p : node) (body items : list node) (c : context) (q : result) : Prop :=
  realises (fun E f s => for_each E (ex E f) p items body s) c q.
Definition P_each (name : bytes) (n : node) (drop : list node -> bool) (vs : list node) (c : context) (q : result) : Prop :=
  forall cl d, c_node cl = n -> drop = (if d : bool then is_unit else drop_none) ->
    realises (fun E f s => map_each (inv E f) d name cl vs s) c q.
Definition P_keys (name : bytes) (n : node) (st : site) (vs : list node) (c : context)
  (q : res (list (bytes * node) * context)) : Prop :=
  forall cl, c_node cl = n -> realises (fun E f s => sort_keys (inv E f) name cl st vs s) c q.

(** Arguments first. *)
Lemma strict_realises name meaning cl ps c vs c1 q :
  In (name, meaning) on_values -> P_all ps c (Ok (vs, c1)) ->
  (forall s, visible s = c1 -> done E meaning name cl vs s q) -> realises (a_call name cl ps) c q.
Proof.
  intros I A D. destruct (values_meaning E name meaning I) as [m [F [S X]]].
  apply (call_of name cl ps m c q F).
  apply (realises_ext _ (fun E' f s => let* '(vs, s1) := exs (ex E' f) ps s in finish E m cl vs s1)).
  { intros o f s _ _. rewrite strict_finish by exact S. destruct (exs _ ps s) as [[vs' s1]| | | |]; try reflexivity.
    cbn [bind]. apply finish_order, S. }
  apply (realises_bind (a_list ps) (fun vs _ _ s1 => finish E m cl vs s1) c vs c1 q A).
  apply realises_now. intros s V. exists (finish E m cl vs s). rewrite <- seen_view.
  split; [symmetry; apply X, D, V|]. split; [apply finish_fuel, S|].
  split; [|reflexivity]. pose proof (finish_seed E m cl vs s S) as L. unfold level in L.
  destruct (finish E m cl vs s) as [[ns s1]| | | |]; cbn; auto. unfold seed_of. rewrite (L ns s1 eq_refl). lia.
Qed.
Lemma strict_stops name meaning cl ps c q r :
  In (name, meaning) on_values -> P_all ps c q -> fails q r -> realises (a_call name cl ps) c r.
Proof.
  intros I A D. destruct (values_meaning E name meaning I) as [m [F [S X]]].
  apply (call_of name cl ps m c r F).
  apply (realises_ext _ (fun E' f s => let* '(vs, s1) := exs (ex E' f) ps s in finish E' m cl vs s1)).
  { intros o f s _ _. apply strict_finish, S. }
  exact (realises_fails (a_list ps) (fun vs E' _ s1 => finish E' m cl vs s1) c q r A D).
Qed.

Lemma eager_realises {rs} cl ps c vs c1 x q (k : args -> list node -> comp (list node)) :
  P_all ps c (Ok (vs, c1)) -> arguments rs (c_node cl) vs = Ok x -> realises (k x vs) c1 q ->
  realises (fun E f s => let* '(x, vs, s1) := eager (ex E f) rs cl ps s in k x vs E f s1) c q.
Proof.
  intros A X K.
  apply (realises_ext _ (fun E f s => let* '(vs, s1) := a_list ps E f s in
     (fun vs E f s1 => let* x := arguments rs (c_node cl) vs in k x vs E f (touch cl s1)) vs E f s1)).
  { intros o f s _ _. unfold eager, a_list. destruct (exs _ ps s) as [[vs' s1]| | | |]; try reflexivity.
    cbn [bind]. destruct (arguments rs (c_node cl) vs'); reflexivity. }
  apply (realises_bind _ _ c vs c1 q A). cbv beta.
  apply (realises_ext _ (fun E f s => k x vs E f (touch cl s))).
  { intros. rewrite X. reflexivity. }
  apply (realises_from (k x vs) (touch cl) c1 c1 q K).
  - intros s V. rewrite visible_touch. exact V.
  - intros s. apply touch_seed.
Qed.
Lemma eager_refused {rs} cl ps c vs c1 e (k : args -> list node -> comp (list node)) :
  P_all ps c (Ok (vs, c1)) -> arguments rs (c_node cl) vs = Err e ->
  realises (fun E f s => let* '(x, vs, s1) := eager (ex E f) rs cl ps s in k x vs E f s1) c (Err e).
Proof.
  intros A X.
  apply (realises_ext _ (fun E f s => let* '(vs, s1) := a_list ps E f s in
     (fun vs E f s1 => let* x := arguments rs (c_node cl) vs in k x vs E f (touch cl s1)) vs E f s1)).
  { intros o f s _ _. unfold eager, a_list. destruct (exs _ ps s) as [[vs' s1]| | | |]; try reflexivity.
    cbn [bind]. destruct (arguments rs (c_node cl) vs'); reflexivity. }
  apply (realises_bind _ _ c vs c1 _ A). cbv beta. apply realises_err. intros. rewrite X. reflexivity.
Qed.
Lemma eager_stops {rs} cl ps c q r (k : args -> list node -> comp (list node)) :
  P_all ps c q -> fails q r ->
  realises (fun E f s => let* '(x, vs, s1) := eager (ex E f) rs cl ps s in k x vs E f s1) c r.
Proof.
  intros A X.
  apply (realises_ext _ (fun E f s => let* '(vs, s1) := a_list ps E f s in
     (fun vs E f s1 => let* x := arguments rs (c_node cl) vs in k x vs E f (touch cl s1)) vs E f s1)).
  { intros o f s _ _. unfold eager, a_list. destruct (exs _ ps s) as [[vs' s1]| | | |]; try reflexivity.
    cbn [bind]. destruct (arguments rs (c_node cl) vs'); reflexivity. }
  exact (realises_fails _ _ c q r A X).
Qed.

(** %map, %filter, %apply and %sort all begin like this. *)
Definition k_map (d : bool) (cl : call) (x : args) (vs : list node) : comp (list node) := fun E f s1 =>
  let* g := need as_atom (PInt 1) x in let* l := rest_of as_node x in map_each (inv E f) d (a_val g) cl l s1.
Definition k_apply (cl : call) (x : args) (vs : list node) : comp (list node) := fun E f s1 =>
  let* g := need as_atom (PInt 1) x in let* l := rest_of as_node x in run E f (TInvoke (a_val g) cl l) s1.
Definition k_sort (cl : call) (x : args) (vs : list node) : comp (list node) := fun E f s1 =>
    let* n := need as_node (PInt 1) x in
    let* order := want as_atom (PStr (b "order")) x in
    let* key := want as_atom (PStr (b "key")) x in
    let key_site := match key with Some a => a_site a | None => call_site cl end in
    let name := val_or (b "do") key in
    let ascending := beq (val_or (b "ascending") order) (b "ascending") in
    match n with
    | Lst nodes st ew es _ =>
      let* '(items, s) := sort_keys (inv E f) name cl key_site nodes s1 in
      let* sorted :=
        sort_by E (fun x y => if ascending then key_cmp E (fst x) (fst y)
                            else key_cmp E (fst y) (fst x)) items in
      Ok ([Lst (with_ws_of (map snd sorted) nodes) st ew es (call_ws cl)], touch cl s)
    | _ => error ESort (node_site n)
    end.

(** A macro with argument rules whose arguments have been evaluated. *)
Lemma refused_realises name rs cl ps c vs c1 r :
  In (name, rs) eager_rules -> P_all ps c (Ok (vs, c1)) -> refused rs (c_node cl) vs r -> realises (a_call name cl ps) c r.
Proof.
  intros I A R. destruct (find_builtin name) as [m|] eqn:F.
  2: { exfalso. revert I F. cbn. intros I. repeat (destruct I as [I|I]; [inversion I; subst; discriminate|]). destruct I. }
  destruct (strict m) eqn:S.
  - destruct (strict_meaning name m F S) as [meaning J]. eapply strict_realises; [exact J|exact A|].
    intros s _. right. eauto.
  - apply (call_of name cl ps m c r F). pose proof (eager_well_formed name rs I) as W.
    apply refused_iff in R as [e [-> X]]; [|exact W].
    cbn in I. repeat (destruct I as [I|I]; [inversion I; subst; vm_compute in F; inversion F; subst; clear F; try discriminate S|]); [..|destruct I].
    + exact (eager_refused cl ps c vs c1 e (k_sort cl) A X).
    + exact (eager_refused cl ps c vs c1 e (k_map false cl) A X).
    + exact (eager_refused cl ps c vs c1 e (k_map true cl) A X).
    + exact (eager_refused cl ps c vs c1 e (k_apply cl) A X).
Qed.

Lemma respaced_realises cl (m : comp (list node)) n c q : c_node cl = n -> realises m c q ->
  realises (fun E f s => let* '(ns, s) := m E f s in
    match ns with [] => Ok ([], s) | _ => Ok (set_first_ws (call_ws cl) ns, touch cl s) end)
    c (changed (respaced (leading_ws n)) q).
Proof.
  intros N H.
  apply (realises_ext _ (fun E f s => let* '(ns, s) := m E f s in
    Ok (respaced (leading_ws n) ns, (match ns with [] => s | _ => touch cl s end)))).
  { intros o f s _ _. destruct (m _ f s) as [[[|x ns] s1]| | | |]; try reflexivity.
    cbn [bind]. unfold call_ws. rewrite respaced_eq, N. reflexivity. }
  apply (realises_changed m (respaced (leading_ws n)) (fun ns s => match ns with [] => s | _ => touch cl s end) c q H).
  - intros [|x ns] s; [reflexivity|apply visible_touch].
  - intros [|x ns] s; [reflexivity|apply touch_seed].
Qed.

Lemma declares name params body (l : list node) (h : state -> state) c :
  single_rests params -> (forall s, visible (h s) = visible s) -> (forall s, seed_of (h s) = seed_of s) ->
  realises (fun _ _ s => let* s := create_macro name params body (h s) in Ok (l, s)) c
    (Ok (l, declare name (Macro params body) c)).
Proof.
  intros S V L.
  apply (realises_ext _ (fun _ _ s => Ok (l, set_defs (put name (Macro params body) (x_defs (h s))) (h s)))).
  { intros o f s _ _. destruct (create_cases name params body (h s)) as [[_ ->]|[p [[b1 [b2 [Q D]]] _]]]; [reflexivity|].
    exfalso. destruct S as [S1 S2]. subst params.
    unfold rest_names, kwrest_names in *. rewrite flat_map_app in S1, S2. cbn [flat_map] in S1, S2.
    rewrite !app_length in S1, S2.
    destruct D as [[D1 D2]|[_ [D1 D2]]].
    - destruct (rest_name p); [|congruence]. cbn in S1. lia.
    - destruct (kwrest_name p); [|congruence]. cbn in S2. lia. }
  apply realises_ret.
  - intros s <-. rewrite set_declare, V. reflexivity.
  - intros s. rewrite <- (L s). reflexivity.
Qed.
Lemma declares_not name params body (l : list node) (h : state -> state) c p :
  excess_rest params p ->
  realises (fun _ _ s => let* s := create_macro name params body (h s) in Ok (l, s)) c
    (Err (EErr EBindMultiRest (node_site p))).
Proof.
  intros X. apply realises_err. intros o f s _ _.
  rewrite (proj2 (create_macro_outcome name params body (h s) (Err (EErr EBindMultiRest (node_site p))))); [reflexivity|].
  right. eauto.
Qed.

(** %namespace *)
Definition framed (m : comp (list node)) : comp (list node * scope) := fun E f s =>
  let* '(ns, defs, s) := in_frame (m E f) s in Ok ((ns, defs), s).
Definition framed_view (c : context) (q : result) : res (list node * scope * context) :=
  match q with
  | Ok (ns, c1) => Ok ((ns, k_defs c1), with_defs (k_defs c) c1)
  | Err e => Err e | Panic p => Panic p | Hang => Hang | OutOfFuel => OutOfFuel
  end.
Lemma framed_realises m c q : realises m c q -> realises (framed m) c (framed_view c q).
Proof.
  intros H.
  apply (realises_ext _ (fun E f s =>
    (fun s r => let* '(x, s1) := r in
       Ok ((x, x_defs s1), State (x_defs s) (x_vec s) (free_from (length (g_sources (x_world s))) (x_world s1)))) s
      (m E f (State (x_defs s) (vec_clone (x_vec s)) (x_world s))))).
  { intros o f s _ _. unfold framed, in_frame. destruct (m _ _ _) as [[x s1]| | | |]; reflexivity. }
  apply (realises_map m (fun s => State (x_defs s) (vec_clone (x_vec s)) (x_world s))
    (fun s r => let* '(x, s1) := r in
       Ok ((x, x_defs s1), State (x_defs s) (x_vec s) (free_from (length (g_sources (x_world s))) (x_world s1)))) c c q).
  - exact H.
  - intros s V. exact V.
  - reflexivity.
  - intros s r V <-. destruct r as [[ns s1]| | | |]; try reflexivity. cbn. rewrite <- V. reflexivity.
  - intros s r. destruct r as [[ns s1]| | | |]; cbn; auto.
Qed.
Definition k_namespace (cl : call) (nd : list node * scope) : comp (list node) := fun E f s =>
  match fst nd with
  | [] => error ENamespace (call_site cl)
  | name :: ns' =>
      match atomic name with
      | None => error ENamespace (call_site cl)
      | Some a =>
          let* '(sep, body) := namespace_options (b "/") ns' in
          let keys := e_order E (g_seed (x_world s)) (scope_names (snd nd)) in
          Ok (body, new_maps 1 (set_defs (copy_prefixed (a_val a ++ sep) keys (snd nd) (x_defs s)) s))
      end
  end.
Lemma namespace_eq cl ps E' f s :
  run_builtin E' (ex E' f) (inv E' f) BNamespace cl ps s =
  let* '(nd, s) := framed (a_list ps) E' f s in k_namespace cl nd E' f s.
Proof.
  cbn [run_builtin]. unfold do_namespace, framed, a_list.
  destruct (in_frame _ s) as [[[ns defs] s1]| | | |]; reflexivity.
Qed.
Lemma namespace_realises cl ps c vs c1 q : P_all ps c (Ok (vs, c1)) ->
  realises (k_namespace cl (vs, k_defs c1)) (with_defs (k_defs c) c1) q -> realises (a_call (b "namespace") cl ps) c q.
Proof.
  intros H K. apply (call_of (b "namespace") cl ps BNamespace c q eq_refl).
  apply (realises_ext _ (fun E f s => let* '(nd, s) := framed (a_list ps) E f s in k_namespace cl nd E f s));
    [intros; apply namespace_eq|].
  apply framed_realises in H. exact (realises_bind (framed (a_list ps)) (k_namespace cl) c _ _ q H K).
Qed.

(** %include *)
Definition k_include (cl : call) (ps : list node) : comp (list node) := fun E f s =>
  match ps with
  | [n] =>
      match atomic n with
      | None => error EInclude (node_site n)
      | Some a =>
          match search_file E true (e_includes E) (a_val a) with
          | None => error EInclude (a_site a)
          | Some (path, text) =>
              let '(id, s) := add_source path text s in
              match parse (e_unescape E) id text with
              | Ok tree =>
                  let* '(ns, s) := exs (ex E f) tree s in
                  match ns with
                  | [] => Ok ([], s)
                  | _ => Ok (set_first_ws (call_ws cl) ns, touch cl s)
                  end
              | Err _ => error EInclude (call_site cl)
              | Panic p => Panic p
              | Hang => Hang
              | OutOfFuel => OutOfFuel
              end
          end
      end
  | _ => error EInclude (call_site cl)
  end.
Lemma include_realises cl ps c vs c1 q : P_all ps c (Ok (vs, c1)) ->
  realises (k_include cl vs) c1 q -> realises (a_call (b "include") cl ps) c q.
Proof.
  intros H K. apply (call_of (b "include") cl ps BInclude c q eq_refl).
  exact (realises_bind (a_list ps) (k_include cl) c vs c1 q H K).
Qed.
Lemma found_file a path text : first_readable E (candidates true (e_includes E) a) path text ->
  search_file E true (e_includes E) a = Some (path, text).
Proof.
  intros R. pose proof (search_first E true a (e_includes E)) as S.
  destruct (search_file E true (e_includes E) a) as [[p t]|].
  - destruct (first_readable_fun E _ _ _ _ _ S R) as [-> ->]. reflexivity.
  - exfalso. eapply readable_not_none; eauto.
Qed.

Definition k_for (p : node) (items body : list node) : comp (list node) := fun E f s =>
  let* '(items, s) := exs (ex E f) items s in
  let* '(ns, _, s) := in_frame (for_each E (ex E f) p items body) s in
  Ok (ns, s).
Definition k_clause (v pat : node) (body cs : list node) (ps : list node) : comp (list node) := fun E f s =>
  match ps with
  | [p] =>
      match bind_node E p v (State (x_defs s) (vec_clone (x_vec s)) (x_world s)) with
      | Err _ => match_clauses E (ex E f) v cs s
      | _ =>
          let* '(ns, _, s) :=
            in_frame (fun s => let* s := bind_node E p v s in exs (ex E f) body s) s in
          Ok (ns, s)
      end
  | _ => error EMatch (node_site pat)
  end.
Definition k_each (name : bytes) (cl : call) (vs : list node) (d : bool) (drop : list node -> bool) (xs : list node)
  : comp (list node) := fun E f s =>
  let* '(ys, s) := map_each (inv E f) d name cl vs s in Ok ((if drop xs then [] else xs) ++ ys, s).
Lemma each_eq name cl v vs (d : bool) drop E' f s : drop = (if d then is_unit else drop_none) ->
  map_each (inv E' f) d name cl (v :: vs) s =
  let* '(xs, s) := a_call name cl [v] E' f s in k_each name cl vs d drop xs E' f s.
Proof.
  intros ->. cbn [map_each]. unfold a_call. destruct (run E' f (TInvoke name cl [v]) s) as [[xs s1]| | | |]; try reflexivity.
  cbn [bind]. unfold k_each.
  assert (Q : match xs with [x] => if d && null x then [] else xs | _ => xs end =
    if (if d then is_unit else drop_none) xs then [] else xs).
  { destruct d; [|destruct xs as [|? [|]]; reflexivity]. destruct xs as [|x [|]]; try reflexivity.
    cbn. destruct x as [| | | |[|] ? ? ? ?|]; reflexivity. }
  rewrite Q. reflexivity.
Qed.

(** %sort *)
Definition k_sorted (cl : call) (vs nodes : list node) st ew es (items : list (bytes * node)) : comp (list node) :=
  fun _ f s =>
  let* sorted := sort_by E (sort_order E vs) items in
  Ok ([Lst (with_ws_of (map snd sorted) nodes) st ew es (call_ws cl)], touch cl s).
Lemma sort_accepted n vs : accepted rules_sort vs -> exists x, arguments rules_sort n vs = Ok x.
Proof.
  intros A. destruct (arguments_cases rules_sort n vs (eager_well_formed (b "sort") rules_sort ltac:(cbn; auto 20))) as [[_ X]|[N _]];
    [exact X|contradiction].
Qed.
Lemma sort_step cl vs nodes st ew es w x c q :
  accepted rules_sort vs -> arguments rules_sort (c_node cl) vs = Ok x -> positionals vs = [Lst nodes st ew es w] ->
  realises (fun E f s => let* '(items, s) := sort_keys (inv E f) (key_macro vs) cl (key_place (c_node cl) vs) nodes s in
    k_sorted cl vs nodes st ew es items E f s) c q ->
  realises (k_sort cl x vs) c q.
Proof.
  intros A X P. destruct (sort_fields (c_node cl) vs x A X) as [v [order [key [P' [X1 [X2 [X3 [Q1 [Q2 Q3]]]]]]]]].
  assert (v = Lst nodes st ew es w) by congruence. subst v.
  apply realises_ext. intros o f s _ _. unfold k_sort. rewrite X1. cbn [bind]. rewrite X2. cbn [bind]. rewrite X3. cbn [bind]. cbv zeta.
  unfold call_site. rewrite Q1, Q2, Q3.
  destruct (sort_keys _ _ cl _ nodes s) as [[items s1]| | | |]; try reflexivity. cbn [bind].
  change (key_cmp (with_order o E)) with (key_cmp E).
  change (@sort_by (bytes * node) (with_order o E)) with (@sort_by (bytes * node) E). rewrite sort_by_order. reflexivity.
Qed.
Definition key_call name cl st v : comp (list node) := fun E f s =>
  match run E f (TInvoke name cl [v]) s with Err _ => error ESort st | r => r end.
Definition key_error (st : site) (q : result) : result :=
  match q with Err _ => Err (EErr ESort st) | q => q end.
Definition k_keys name cl st v vs (key : list node) : comp (list (bytes * node)) := fun E f s =>
  match key with
  | [k] =>
      match atomic k with
      | None => error ESort (node_site k)
      | Some a =>
          let* '(items, s) := sort_keys (inv E f) name cl st vs s in
          Ok ((a_val a, v) :: items, s)
      end
  | _ => error ESort st
  end.
Lemma keys_first name cl st v c q : realises (a_call name cl [v]) c q ->
  realises (key_call name cl st v) c (key_error st q).
Proof.
  intros H.
  apply (realises_ext _ (fun E f s => (fun _ r => match r with Err _ => error ESort st | r => r end) s (a_call name cl [v] E f s))).
  { intros. unfold key_call, a_call. destruct (run _ _ _ _); reflexivity. }
  apply (realises_map (a_call name cl [v]) (fun s => s) (fun _ r => match r with Err _ => error ESort st | r => r end) c c q
    (key_error st q)); auto.
  - intros s r _ <-. destruct r as [[? ?]| | | |]; reflexivity.
  - intros s r. destruct r as [[? ?]| | | |]; cbn; auto.
Qed.
Lemma keys_realises name cl st v vs c q r : realises (a_call name cl [v]) c q ->
  realises (fun E f s => let* '(key, s) := key_call name cl st v E f s in k_keys name cl st v vs key E f s) c r ->
  realises (fun E f s => sort_keys (inv E f) name cl st (v :: vs) s) c r.
Proof. intros _ H. exact H. Qed.

Theorem complete :
  (forall n c r, means E n c r -> P_means n c r) /\
  (forall ns c r, means_all E ns c r -> P_all ns c r) /\
  (forall name n ps c r, runs E name n ps c r -> P_runs name n ps c r) /\
  (forall v cs c r, clauses E v cs c r -> P_clauses v cs c r) /\
  (forall p body items c r, rounds E p body items c r -> P_rounds p body items c r) /\
  (forall name n drop vs c r, each E name n drop vs c r -> P_each name n drop vs c r) /\
  (forall name n st vs c r, keys E name n st vs c r -> P_keys name n st vs c r).
Proof.
  apply (means_mutind E P_means P_all P_runs P_clauses P_rounds P_each P_keys).
  - (* atom *) intros n a c A S. apply node_one.
    apply (realises_ext _ (fun _ _ s => Ok ([n], s))); [|apply realises_ret; auto].
    intros. destruct n; try discriminate; reflexivity.
  - (* symbol *) intros a c N. apply node_one.
    apply (realises_ext _ (fun _ _ s => Ok ([Sym a], s))); [|apply realises_ret; auto].
    intros. cbn [expand_one]. destruct (starts_with (b "%") (a_val a)) eqn:P; [|reflexivity].
    apply starts_percent in P. exfalso. eapply N, P.
  - (* variable *) intros a name body c q Q G _ H. apply node_one.
    apply (realises_ext _ (fun E f s => let* '(ns, s) := a_list body E f s in Ok (respaced (a_ws a) ns, s))).
    { intros o f s V _. cbn [expand_one]. rewrite Q.
      change (starts_with (b "%") (b "%" ++ name)) with true. change (skipn 1 (b "%" ++ name)) with name.
      change (x_defs s) with (k_defs (visible s)). rewrite V, G. reflexivity. }
    apply (realises_changed (a_list body) (respaced (a_ws a)) (fun _ s => s) c q H); reflexivity.
  - (* undefined *) intros a name c Q G. apply node_one. apply realises_err. intros o f s V _.
    cbn [expand_one]. rewrite Q.
    change (starts_with (b "%") (b "%" ++ name)) with true. change (skipn 1 (b "%" ++ name)) with name.
    change (x_defs s) with (k_defs (visible s)). rewrite V.
    destruct (get name (k_defs c)) as [[[|p ps] body]|]; try reflexivity. exfalso. eapply G. reflexivity.
  - (* call *) intros n name args c r [a [st [ew [es [w [-> Q]]]]]] _ H s V.
    set (n := Lst (Sym a :: args) st ew es w) in *.
    assert (R := H (Call n (v_gen (vec_push (x_vec s)))) eq_refl). destruct (R (snd (register n s)) V) as [o [r' [P [X [Y Z]]]]].
    exists o, r'. split; [exact P|]. split; [exact X|]. split; [exact Y|]. intros o' P' A'.
    destruct (Z o' P' A') as [NF [f F]]. split; [exact NF|]. exists (S f). intros [|g] L; [lia|].
    rewrite <- (F g) by lia. unfold a_node, a_call. cbn [run]. unfold n at 1. cbn [expand_one symbol]. fold n.
    unfold register. rewrite Q. change (starts_with (b "%") (b "%" ++ name)) with true.
    change (skipn 1 (b "%" ++ name)) with name. cbv iota beta. rewrite received_trim. reflexivity.
  - (* list *) intros ns st ew es w c q NC _ H. apply node_one.
    destruct ns as [|head tail].
    { apply (realises_ext _ (fun E f s => let* '(ns, s) := a_list [] E f s in Ok ([Lst ns st ew es w], s))); [reflexivity|].
      apply (realises_changed (a_list []) (fun ns => [Lst ns st ew es w]) (fun _ s => s) c q H); reflexivity. }
    set (h := fun s => match symbol head with Some _ => snd (register (Lst (head :: tail) st ew es w) s) | None => s end).
    apply (realises_ext _ (fun E f s => (fun E f s => let* '(ns, s) := a_list (head :: tail) E f s in Ok ([Lst ns st ew es w], s)) E f (h s))).
    { intros o f s _ _. unfold h. cbn [expand_one]. cbv zeta.
      destruct head as [a|a|a|a|l st' ew' es' w'|k v st' w']; cbn [symbol]; try reflexivity.
      unfold register. destruct (starts_with (b "%") (a_val a)) eqn:P; [|reflexivity].
      exfalso. apply starts_percent in P. eapply NC, is_call_at, P. }
    apply (realises_from (fun E f s => let* '(ns, s) := a_list (head :: tail) E f s in Ok ([Lst ns st ew es w], s)) h c c).
    + apply (realises_changed (a_list (head :: tail)) (fun ns => [Lst ns st ew es w]) (fun _ s => s) c q H); reflexivity.
    + intros s <-. unfold h. destruct (symbol head); reflexivity.
    + intros s. unfold h. destruct (symbol head); reflexivity.
  - (* attr *) intros k v st w c x xs c1 _ H. apply node_one.
    refine (realises_bind (a_node v) (fun ns _ _ s => match ns with [] => Panic PIndex | x :: ns' => Ok (Attr k x st w :: ns', s) end) c (x :: xs) c1 _ H _).
    apply realises_ret; auto.
  - intros k v st w c c1 _ H. apply node_one.
    refine (realises_bind (a_node v) (fun ns _ _ s => match ns with [] => Panic PIndex | x :: ns' => Ok (Attr k x st w :: ns', s) end) c [] c1 _ H _).
    apply realises_now. intros s V. exists (Panic PIndex). split; [reflexivity|]. split; [discriminate|]. split; [exact I|reflexivity].
  - intros k v st w c q r _ H F. apply node_one.
    exact (realises_fails (a_node v) (fun ns _ _ s => match ns with [] => Panic PIndex | x :: ns' => Ok (Attr k x st w :: ns', s) end) c q r H F).
  - (* nil *) intros c. apply (realises_ret [] (fun s => s)); auto.
  - intros n ns c xs c1 q _ H _ K.
    refine (realises_bind (a_node n) (fun xs E f s => let* '(ys, s) := a_list ns E f s in Ok (xs ++ ys, s)) c xs c1 _ H _).
    apply (realises_changed (a_list ns) (app xs) (fun _ s => s) c1 q K); reflexivity.
  - intros n ns c q r _ H F.
    exact (realises_fails (a_node n) (fun xs E f s => let* '(ys, s) := a_list ns E f s in Ok (xs ++ ys, s)) c q r H F).
  - (* values *) intros name meaning n ps c vs c1 r I _ H M cl <-.
    eapply strict_realises; [exact I|exact H|]. intros s <-. left. exact M.
  - (* fails *) intros name n ps c q r EF _ H F cl <-.
    destruct EF as [U|[I|I]].
    + apply call_user; [exact U|].
      exact (realises_fails (a_list ps) (fun ps E f s => match get name (x_defs s) with
        | None => error EMacroNotFound (call_site cl) | Some m => apply_macro E (ex E f) m cl ps s end) c q r H F).
    + apply in_map_iff in I as [[name' meaning] [Q I]]. cbn in Q. subst name'. eapply strict_stops; eauto.
    + cbn [map In] in I. destruct I as [<-|[<-|[<-|[<-|[<-|[<-|[]]]]]]].
      * apply (call_of (b "include") cl ps BInclude c r eq_refl). cbn [run_builtin]. unfold do_include.
        exact (realises_fails (a_list ps) _ c q r H F).
      * apply (call_of (b "namespace") cl ps BNamespace c r eq_refl).
        apply (realises_ext _ (fun E f s => let* '(nd, s) := framed (a_list ps) E f s in k_namespace cl nd E f s));
          [intros; apply namespace_eq|].
        apply framed_realises in H.
        eapply (realises_fails (framed (a_list ps)) (k_namespace cl) c _ r); [exact H|]. destruct q as [[? ?]| | | |]; exact F.
      * apply (call_of (b "sort") cl ps BSort c r eq_refl). exact (eager_stops cl ps c q r (k_sort cl) H F).
      * apply (call_of (b "map") cl ps BMap c r eq_refl). exact (eager_stops cl ps c q r (k_map false cl) H F).
      * apply (call_of (b "filter") cl ps BFilter c r eq_refl). exact (eager_stops cl ps c q r (k_map true cl) H F).
      * apply (call_of (b "apply") cl ps BApply c r eq_refl). exact (eager_stops cl ps c q r (k_apply cl) H F).
  - (* refused *) intros name rs n ps c vs c1 r I _ H R cl <-. eapply refused_realises; eauto.
  - (* body *) intros name n ps c vs c1 m l q U _ H G B _ K cl <-. apply call_user; [exact U|].
    refine (realises_bind (a_list ps) (fun ps E f s => match get name (x_defs s) with
        | None => error EMacroNotFound (call_site cl) | Some m => apply_macro E (ex E f) m cl ps s end) c vs c1 _ H _).
    apply (realises_ext _ (fun E f s => apply_macro E (ex E f) m cl vs s)).
    { intros o f s V _. change (x_defs s) with (k_defs (visible s)). rewrite V, G. reflexivity. }
    unfold apply_macro. apply (realises_frame (fun E f s => let* s := bind_list E (call_site cl) (m_params m) vs s in exs (ex E f) (m_body m) s)).
    eapply (realises_into (fun E s => bind_list E (call_site cl) (m_params m) vs s) (a_list (m_body m))); [apply realises_args, B|exact K].
  - intros name n ps c vs c1 m k st U _ H G M cl <-. apply call_user; [exact U|].
    refine (realises_bind (a_list ps) (fun ps E f s => match get name (x_defs s) with
        | None => error EMacroNotFound (call_site cl) | Some m => apply_macro E (ex E f) m cl ps s end) c vs c1 _ H _).
    apply (realises_ext _ (fun E f s => apply_macro E (ex E f) m cl vs s)).
    { intros o f s V _. change (x_defs s) with (k_defs (visible s)). rewrite V, G. reflexivity. }
    unfold apply_macro.
    change (Err (EErr k st)) with (within c1 (Err (EErr k st))).
    apply (realises_frame (fun E f s => let* s := bind_list E (call_site cl) (m_params m) vs s in exs (ex E f) (m_body m) s)).
    apply (realises_not_into (fun E s => bind_list E (call_site cl) (m_params m) vs s) (a_list (m_body m))).
    apply (realises_blamed (fun E s => bind_list E (call_site cl) (m_params m) vs s)).
    apply (proj1 (proj2 (failures E))), M.
  - intros name n ps c vs c1 U _ H G cl <-. apply call_user; [exact U|].
    refine (realises_bind (a_list ps) (fun ps E f s => match get name (x_defs s) with
        | None => error EMacroNotFound (call_site cl) | Some m => apply_macro E (ex E f) m cl ps s end) c vs c1 _ H _).
    apply realises_err. intros o f s V _. change (x_defs s) with (k_defs (visible s)). rewrite V, G. reflexivity.
  - (* define *) intros n a body c vs c1 _ H cl <-. apply (call_of (b "define") cl _ BDefine c _ eq_refl).
    refine (realises_bind (a_list body) (fun body _ _ s => let* s := create_macro (a_val a) [] body s in Ok ([], s)) c vs c1 _ H _).
    apply (declares (a_val a) [] vs [] (fun s => s)); auto. split; cbn; lia.
  - intros n a body c q r _ H F cl <-. apply (call_of (b "define") cl _ BDefine c _ eq_refl).
    exact (realises_fails (a_list body) (fun body _ _ s => let* s := create_macro (a_val a) [] body s in Ok ([], s)) c q r H F).
  - intros n a params st ew es w body c S cl <-. apply (call_of (b "define") cl _ BDefine c _ eq_refl).
    apply (declares (a_val a) params body [] (fun s => s)); auto.
  - intros n a params st ew es w body c p S cl <-. apply (call_of (b "define") cl _ BDefine c _ eq_refl).
    apply (declares_not (a_val a) params body [] (fun s => s)); auto.
  - intros n head body c bad NH cl <-. apply (call_of (b "define") cl _ BDefine c _ eq_refl).
    apply realises_err. intros o f s _ _. exact (define_no_head E _ cl head body s bad NH).
  - intros n c cl <-. apply (call_of (b "define") cl _ BDefine c _ eq_refl). apply realises_err. reflexivity.
  - (* lambda *) intros n ps c head more params P LP S cl <-. apply (call_of (b "lambda") cl _ BLambda c _ eq_refl).
    destruct (lambda_arguments (c_node cl) ps head more P) as [x [X1 [X2 X3]]].
    apply (realises_ext _ (fun E' f s => let* s := create_macro (lambda_name E c (node_site (c_node cl))) params (drop_positionals 1 ps) (touch cl s) in
      Ok ([Sym (here cl (lambda_name E c (node_site (c_node cl))))], s))).
    { intros o f s <- _. cbn [run_builtin]. unfold do_lambda. rewrite X1. cbn [bind]. rewrite X2. cbn [bind]. rewrite X3. cbn [bind].
      destruct LP; reflexivity. }
    apply (declares (lambda_name E c (node_site (c_node cl))) params (drop_positionals 1 ps) _ (touch cl));
      [exact S|apply visible_touch|intros s; apply touch_seed].
  - intros n ps c head more params p P LP S cl <-. apply (call_of (b "lambda") cl _ BLambda c _ eq_refl).
    destruct (lambda_arguments (c_node cl) ps head more P) as [x [X1 [X2 X3]]].
    apply (realises_ext _ (fun E' f s => let* s := create_macro (lambda_name E c (node_site (c_node cl))) params (drop_positionals 1 ps) (touch cl s) in
      Ok ([Sym (here cl (lambda_name E c (node_site (c_node cl))))], s))).
    { intros o f s <- _. cbn [run_builtin]. unfold do_lambda. rewrite X1. cbn [bind]. rewrite X2. cbn [bind]. rewrite X3. cbn [bind].
      destruct LP; reflexivity. }
    apply declares_not, S.
  - intros n ps c head more P S L cl <-. apply (call_of (b "lambda") cl _ BLambda c _ eq_refl).
    destruct (lambda_arguments (c_node cl) ps head more P) as [x [X1 [X2 X3]]].
    apply realises_err. intros o f s _ _. cbn [run_builtin]. unfold do_lambda. rewrite X1. cbn [bind]. rewrite X2. cbn [bind]. rewrite X3. cbn [bind].
    rewrite S, L. reflexivity.
  - intros n ps c r R cl <-. apply (call_of (b "lambda") cl _ BLambda c _ eq_refl).
    apply refused_iff in R as [e [-> X]]; [|exact wf_lambda]. apply realises_err. intros o f s _ _.
    cbn [run_builtin]. unfold do_lambda. rewrite X. reflexivity.
  - (* match *) intros n e cs c v c1 r _ H _ K cl <-. apply (call_of (b "match") cl _ BMatch c _ eq_refl).
    exact (realises_bind (a_node e) (fun vs E f s => match vs with [v] => match_clauses E (ex E f) v cs s | _ => error EMatch (node_site e) end)
      c [v] c1 r H K).
  - intros n e cs c q r _ H F cl <-. apply (call_of (b "match") cl _ BMatch c _ eq_refl).
    exact (realises_fails (a_node e) (fun vs E f s => match vs with [v] => match_clauses E (ex E f) v cs s | _ => error EMatch (node_site e) end)
      c q r H F).
  - intros n e cs c vs c1 _ H L cl <-. apply (call_of (b "match") cl _ BMatch c _ eq_refl).
    refine (realises_bind (a_node e) (fun vs E f s => match vs with [v] => match_clauses E (ex E f) v cs s | _ => error EMatch (node_site e) end)
      c vs c1 _ H _).
    apply realises_err. intros. destruct vs as [|v [|v2 vs]]; try reflexivity. contradiction L; reflexivity.
  - intros n c cl <-. apply (call_of (b "match") cl _ BMatch c _ eq_refl). apply realises_err. reflexivity.
  - (* ifdef *) intros n cond a yes no c q L A G _ H cl <-. apply (call_of (b "ifdef") cl _ BIfdef c _ eq_refl).
    apply (realises_ext _ (fun E f s => let* '(ns, s) := a_node yes E f s in
      match ns with [] => Ok ([], s) | _ => Ok (set_first_ws (call_ws cl) ns, touch cl s) end)).
    2: { apply respaced_realises; [reflexivity|exact H]. }
    intros o f s <- _. cbn [run_builtin]. unfold do_ifdef. cbv zeta.
    assert (D : defined (a_val a) (x_defs s) = true) by (apply defined_get; exact G).
    destruct no as [|no1 [|x no]]; [| |cbn in L; lia]; rewrite A, D; reflexivity.
  - intros n cond a yes no c q A G _ H cl <-. apply (call_of (b "ifdef") cl _ BIfdef c _ eq_refl).
    apply (realises_ext _ (fun E f s => let* '(ns, s) := a_node no E f s in
      match ns with [] => Ok ([], s) | _ => Ok (set_first_ws (call_ws cl) ns, touch cl s) end)).
    2: { apply respaced_realises; [reflexivity|exact H]. }
    intros o f s <- _. cbn [run_builtin]. unfold do_ifdef. cbv zeta. rewrite A.
    unfold defined. cbn [visible k_defs] in G. rewrite G. reflexivity.
  - intros n cond a yes c A G cl <-. apply (call_of (b "ifdef") cl _ BIfdef c _ eq_refl).
    apply (realises_ext _ (fun E f s => Ok ([], s))); [|apply realises_ret; auto].
    intros o f s <- _. cbn [run_builtin]. unfold do_ifdef. cbv zeta. rewrite A.
    unfold defined. cbn [visible k_defs] in G. rewrite G. reflexivity.
  - intros n cond yes no c L A cl <-. apply (call_of (b "ifdef") cl _ BIfdef c _ eq_refl). apply realises_err.
    intros o f s _ _. cbn [run_builtin]. unfold do_ifdef. cbv zeta.
    destruct no as [|no1 [|x no]]; [| |cbn in L; lia]; rewrite A; reflexivity.
  - intros n ps c L2 L3 cl <-. apply (call_of (b "ifdef") cl _ BIfdef c _ eq_refl). apply realises_err.
    intros o f s _ _. cbn [run_builtin]. unfold do_ifdef. cbv zeta.
    destruct ps as [|p1 [|p2 [|p3 [|p4 ps]]]]; try reflexivity; cbn in L2, L3; lia.
  - (* include *) intros n ps c v a c1 path text tree q _ H A R PT _ K cl <-.
    apply Proofs_place.syntax_iff in PT; [|destruct R as [? [? [_ [_ R]]]]; exact (TEXT _ _ R)]. eapply include_realises; [exact H|].
    apply (realises_ext _ (fun E f s => let* '(ns, s) := (fun E f s => a_list tree E f (snd (add_source path text s))) E f s in
       match ns with [] => Ok ([], s) | _ => Ok (set_first_ws (call_ws cl) ns, touch cl s) end)).
    { intros o f s <- _. unfold k_include. rewrite A.
      change (search_file (with_order o E) true (e_includes (with_order o E)) (a_val a)) with (search_file E true (e_includes E) (a_val a)).
      rewrite (found_file _ _ _ R). unfold add_source. cbn [snd].
      change (length (g_sources (x_world s))) with (length (k_files (visible s))).
      change (e_unescape (with_order o E)) with (e_unescape E). rewrite PT. reflexivity. }
    apply respaced_realises; [reflexivity|].
    apply (realises_from (a_list tree) (fun s => snd (add_source path text s)) c1 (reading path text c1) q K); [|reflexivity].
    intros s <-. reflexivity.
  - intros n ps c v a c1 path text e _ H A R PT cl <-.
    apply Proofs_place.syntax_iff in PT; [|destruct R as [? [? [_ [_ R]]]]; exact (TEXT _ _ R)]. eapply include_realises; [exact H|].
    apply realises_err. intros o f s <- _. unfold k_include. rewrite A.
    change (search_file (with_order o E) true (e_includes (with_order o E)) (a_val a)) with (search_file E true (e_includes E) (a_val a)).
    rewrite (found_file _ _ _ R). unfold add_source.
    change (length (g_sources (x_world s))) with (length (k_files (visible s))).
    change (e_unescape (with_order o E)) with (e_unescape E). rewrite PT. reflexivity.
  - intros n ps c v a c1 path text q r _ H A R PT NE F cl <-.
    apply Proofs_place.syntax_iff in PT; [|destruct R as [? [? [_ [_ R]]]]; exact (TEXT _ _ R)]. eapply include_realises; [exact H|].
    assert (X : exists r' : out, fails q r' /\ view r' = r /\ r' <> OutOfFuel /\ forall s, rising s r').
    { destruct q; cbn in F; try contradiction; subst r; [exists (Err e)|exists (Panic p)|exists Hang];
        (split; [reflexivity|]; split; [reflexivity|]; split; [discriminate|]; intros; exact I). }
    destruct X as [r' [F' [V' [N' R']]]]. apply realises_now. intros s <-. exists r'. split; [exact V'|]. split; [exact N'|]. split; [apply R'|].
    intros o f _. unfold k_include. rewrite A.
    change (search_file (with_order o E) true (e_includes (with_order o E)) (a_val a)) with (search_file E true (e_includes E) (a_val a)).
    rewrite (found_file _ _ _ R). unfold add_source.
    change (length (g_sources (x_world s))) with (length (k_files (visible s))).
    change (e_unescape (with_order o E)) with (e_unescape E). rewrite PT.
    destruct q; cbn in F'; try contradiction; try (symmetry; exact F'). exfalso. eapply NE. reflexivity.
  - intros n ps c v a c1 _ H A R cl <-. eapply include_realises; [exact H|].
    apply realises_err. intros o f s _ _. unfold k_include. rewrite A.
    change (search_file (with_order o E) true (e_includes (with_order o E)) (a_val a)) with (search_file E true (e_includes E) (a_val a)).
    pose proof (search_first E true (a_val a) (e_includes E)) as S.
    destruct (search_file E true (e_includes E) (a_val a)) as [[p t]|]; [|reflexivity].
    exfalso. eapply readable_not_none; eauto.
  - intros n ps c v c1 _ H A cl <-. eapply include_realises; [exact H|].
    apply realises_err. intros o f s _ _. unfold k_include. rewrite A. reflexivity.
  - intros n ps c vs c1 _ H L cl <-. eapply include_realises; [exact H|].
    apply realises_err. intros o f s _ _. unfold k_include. destruct vs as [|v [|v2 vs]]; try reflexivity. contradiction L; reflexivity.
  - (* namespace *) intros n ps c name a rest c1 d _ H A O IM cl <-. eapply namespace_realises; [exact H|].
    apply realises_now. intros s V. exists (Ok (after_keywords rest, new_maps 1 (set_defs d s))). split.
    { cbn. change (visible (new_maps 1 (set_defs d s))) with (with_defs d (visible s)). rewrite V. reflexivity. }
    split; [discriminate|]. split; [cbn; unfold seed_of; cbn; lia|]. intros o f P.
    unfold k_namespace. cbn [fst snd]. rewrite A, (namespace_options_ok rest (b "/") O). cbn [bind]. cbv zeta.
    do 4 f_equal. eapply imported_fun; [|exact IM].
    replace (k_defs c) with (x_defs s) by (change (x_defs s) with (k_defs (visible s)); rewrite V; reflexivity).
    apply copy_imported, P.
  - intros n ps c name a rest c1 st _ H A B cl <-. eapply namespace_realises; [exact H|].
    apply realises_err. intros o f s _ _. unfold k_namespace. cbn [fst]. rewrite A.
    rewrite (proj2 (namespace_bad rest (b "/") st) B). reflexivity.
  - intros n ps c vs c1 _ H NA cl <-. eapply namespace_realises; [exact H|].
    apply realises_err. intros o f s _ _. unfold k_namespace. cbn [fst]. destruct vs as [|name rest]; [reflexivity|].
    destruct (atomic name) as [a|] eqn:A; [|reflexivity]. exfalso. exact (NA name rest a eq_refl A).
  - (* for *) intros n ps c p i items st ew es w more vs c1 q P IN _ H _ K cl <-. apply (call_of (b "for") cl _ BFor c _ eq_refl).
    destruct (for_arguments (c_node cl) ps p i items st ew es w more P IN) as [x [X1 [X2 [X3 X4]]]].
    apply (realises_ext _ (fun E f s => k_for p items (drop_positionals 3 ps) E f (touch cl s))).
    { intros o f s _ _. cbn [run_builtin]. unfold do_for. rewrite X1. cbn [bind]. rewrite X2. cbn [bind]. rewrite X3. cbn [bind]. rewrite X4. reflexivity. }
    apply (realises_from (k_for p items (drop_positionals 3 ps)) (touch cl) c c);
      [|intros s V; rewrite visible_touch; exact V|intros s; apply touch_seed].
    refine (realises_bind (a_list items) (fun items E f s => let* '(ns, _, s) := in_frame (for_each E (ex E f) p items (drop_positionals 3 ps)) s in Ok (ns, s)) c vs c1 _ H _).
    apply (realises_frame (fun E f s => for_each E (ex E f) p vs (drop_positionals 3 ps) s)). exact K.
  - intros n ps c p i items st ew es w more q r P IN _ H F cl <-. apply (call_of (b "for") cl _ BFor c _ eq_refl).
    destruct (for_arguments (c_node cl) ps p i items st ew es w more P IN) as [x [X1 [X2 [X3 X4]]]].
    apply (realises_ext _ (fun E f s => k_for p items (drop_positionals 3 ps) E f (touch cl s))).
    { intros o f s _ _. cbn [run_builtin]. unfold do_for. rewrite X1. cbn [bind]. rewrite X2. cbn [bind]. rewrite X3. cbn [bind]. rewrite X4. reflexivity. }
    apply (realises_from (k_for p items (drop_positionals 3 ps)) (touch cl) c c);
      [|intros s V; rewrite visible_touch; exact V|intros s; apply touch_seed].
    exact (realises_fails (a_list items) (fun items E f s => let* '(ns, _, s) := in_frame (for_each E (ex E f) p items (drop_positionals 3 ps)) s in Ok (ns, s)) c q r H F).
  - intros n ps c r R cl <-. apply (call_of (b "for") cl _ BFor c _ eq_refl).
    apply refused_iff in R as [e [-> X]]; [|exact wf_for]. apply realises_err. intros o f s _ _.
    cbn [run_builtin]. unfold do_for. rewrite X. reflexivity.
  - (* map *) intros n ps c vs c1 g more r _ H P _ K cl <-. apply (call_of (b "map") cl _ BMap c _ eq_refl).
    destruct (map_arguments (c_node cl) vs g more P) as [x [X1 [X2 X3]]].
    refine (eager_realises cl ps c vs c1 x r (k_map false cl) H X1 _).
    apply (realises_ext _ (fun E f s => map_each (inv E f) false (a_val g) cl (drop_positionals 1 vs) s)); [|apply K; reflexivity].
    intros o f s _ _. unfold k_map. rewrite X2. cbn [bind]. rewrite X3. reflexivity.
  - intros n ps c vs c1 g more r _ H P _ K cl <-. apply (call_of (b "filter") cl _ BFilter c _ eq_refl).
    destruct (map_arguments (c_node cl) vs g more P) as [x [X1 [X2 X3]]].
    refine (eager_realises cl ps c vs c1 x r (k_map true cl) H X1 _).
    apply (realises_ext _ (fun E f s => map_each (inv E f) true (a_val g) cl (drop_positionals 1 vs) s)); [|apply K; reflexivity].
    intros o f s _ _. unfold k_map. rewrite X2. cbn [bind]. rewrite X3. reflexivity.
  - intros n ps c vs c1 g more r _ H P _ K cl <-. apply (call_of (b "apply") cl _ BApply c _ eq_refl).
    destruct (map_arguments (c_node cl) vs g more P) as [x [X1 [X2 X3]]].
    refine (eager_realises cl ps c vs c1 x r (k_apply cl) H X1 _).
    apply (realises_ext _ (a_call (a_val g) cl (drop_positionals 1 vs))); [|apply K; reflexivity].
    intros o f s _ _. unfold k_apply. rewrite X2. cbn [bind]. rewrite X3. reflexivity.
  - (* sort *) intros n ps c vs c1 nodes st ew es w items c2 sorted ns _ H A P _ K ST AR cl <-.
    apply (call_of (b "sort") cl _ BSort c _ eq_refl).
    destruct (sort_accepted (c_node cl) vs A) as [x X].
    eapply (eager_realises cl ps c vs c1 x _ (k_sort cl) H X).
    apply (sort_step cl vs nodes st ew es w x c1 _ A X P).
    refine (realises_bind _ (k_sorted cl vs nodes st ew es) c1 items c2 _ (K cl eq_refl) _).
    unfold k_sorted. apply sort_by_iff in ST as Q.
    assert (Z : ns = with_ws_of (map snd sorted) nodes).
    { eapply arranged_fun; [exact AR|]. apply arranged_with. destruct AR as [L1 L2].
      apply (f_equal (@length _)) in L1. apply (f_equal (@length _)) in L2. repeat rewrite map_length in L1. repeat rewrite map_length in L2. rewrite map_length. lia. }
    apply (realises_ext _ (fun _ _ s => Ok ([Lst ns st ew es (leading_ws (c_node cl))], touch cl s))).
    { intros o f s _ _. rewrite Q. cbn [bind]. rewrite Z. reflexivity. }
    apply realises_ret; [intros s V; rewrite visible_touch; exact V|intros s; apply touch_seed].
  - intros n ps c vs c1 nodes st ew es w items c2 q r _ H A P _ K ST F cl <-.
    apply (call_of (b "sort") cl _ BSort c _ eq_refl).
    destruct (sort_accepted (c_node cl) vs A) as [x X].
    eapply (eager_realises cl ps c vs c1 x _ (k_sort cl) H X).
    apply (sort_step cl vs nodes st ew es w x c1 _ A X P).
    refine (realises_bind _ (k_sorted cl vs nodes st ew es) c1 items c2 _ (K cl eq_refl) _).
    unfold k_sorted. pose proof ST as Q. apply sort_by_iff in Q. destruct ST; cbn in F; try contradiction. subst r.
    apply realises_now. intros s V. exists (Panic PSortOrder). split; [reflexivity|]. split; [discriminate|]. split; [exact I|].
    intros. rewrite Q. reflexivity.
  - intros n ps c vs c1 nodes st ew es w q r _ H A P _ K F cl <-.
    apply (call_of (b "sort") cl _ BSort c _ eq_refl).
    destruct (sort_accepted (c_node cl) vs A) as [x X].
    eapply (eager_realises cl ps c vs c1 x _ (k_sort cl) H X).
    apply (sort_step cl vs nodes st ew es w x c1 _ A X P).
    exact (realises_fails _ (k_sorted cl vs nodes st ew es) c1 q r (K cl eq_refl) F).
  - intros n ps c vs c1 v _ H A P L cl <-.
    apply (call_of (b "sort") cl _ BSort c _ eq_refl).
    destruct (sort_accepted (c_node cl) vs A) as [x X].
    eapply (eager_realises cl ps c vs c1 x _ (k_sort cl) H X).
    destruct (sort_fields (c_node cl) vs x A X) as [v' [order [key [P' [X1 [X2 [X3 _]]]]]]].
    assert (v' = v) by congruence. subst v'.
    apply realises_err. intros o f s _ _. unfold k_sort. rewrite X1. cbn [bind]. rewrite X2. cbn [bind]. rewrite X3. cbn [bind]. cbv zeta.
    destruct v; try discriminate; reflexivity.
  - (* clauses *) intros v c. apply (realises_ret [] (fun s => s)); auto.
  - intros v pat body st ew es w cs c p c1 r _ H NB _ K.
    refine (realises_bind (a_node pat) (k_clause v pat body cs) c [p] c1 r H _).
    apply (realises_ext _ (fun E f s => match_clauses E (ex E f) v cs s)); [|exact K].
    intros o f s _ PO. unfold k_clause.
    destruct (bind_node_cases (with_order o E) PO p v (State (x_defs s) (vec_clone (x_vec s)) (x_world s)))
      as [[s2 [l [_ [B _]]]]|[_ [e B]]]; [exfalso; exact (NB l B)|]. rewrite B. reflexivity.
  - intros v pat body st ew es w cs c p c1 l q _ H B _ K.
    refine (realises_bind (a_node pat) (k_clause v pat body cs) c [p] c1 _ H _).
    apply (realises_ext _ (fun E f s => let* '(ns, _, s) := in_frame (fun s => let* s := bind_node E p v s in exs (ex E f) body s) s in Ok (ns, s))).
    { intros o f s _ PO. unfold k_clause.
      destruct (bind_node_cases (with_order o E) PO p v (State (x_defs s) (vec_clone (x_vec s)) (x_world s)))
        as [[s2 [l' [B' _]]]|[NB _]]; [|exfalso; exact (NB l B)]. rewrite B'. reflexivity. }
    apply (realises_frame (fun E f s => let* s := bind_node E p v s in exs (ex E f) body s)).
    eapply (realises_into (fun E s => bind_node E p v s) (a_list body)); [apply realises_binds, B|exact K].
  - intros v pat body st ew es w cs c q r _ H F.
    exact (realises_fails (a_node pat) (k_clause v pat body cs) c q r H F).
  - intros v pat body st ew es w cs c ps c1 _ H L.
    refine (realises_bind (a_node pat) (k_clause v pat body cs) c ps c1 _ H _).
    apply realises_err. intros. unfold k_clause. destruct ps as [|p [|p2 ps]]; try reflexivity. contradiction L; reflexivity.
  - intros v clause cs c L. apply realises_err. intros. cbn [match_clauses]. destruct L as [-> | ->]; reflexivity.
  - (* rounds *) intros p body c. apply (realises_ret [] (fun s => s)); auto.
  - intros p body i items c l xs c1 q B _ H _ K.
    eapply (realises_into (fun E s => bind_node E p i s)
      (fun E f s => let* '(xs, s) := exs (ex E f) body s in let* '(ys, s) := for_each E (ex E f) p items body s in Ok (xs ++ ys, s)));
      [apply realises_binds, B|].
    refine (realises_bind (a_list body) (fun xs E f s => let* '(ys, s) := for_each E (ex E f) p items body s in Ok (xs ++ ys, s)) _ xs c1 _ H _).
    apply (realises_changed (fun E f s => for_each E (ex E f) p items body s) (app xs) (fun _ s => s) c1 q K); reflexivity.
  - intros p body i items c l q r B _ H F.
    eapply (realises_into (fun E s => bind_node E p i s)
      (fun E f s => let* '(xs, s) := exs (ex E f) body s in let* '(ys, s) := for_each E (ex E f) p items body s in Ok (xs ++ ys, s)));
      [apply realises_binds, B|].
    exact (realises_fails (a_list body) (fun xs E f s => let* '(ys, s) := for_each E (ex E f) p items body s in Ok (xs ++ ys, s)) _ q r H F).
  - intros p body i items c k st M.
    apply (realises_not_into (fun E s => bind_node E p i s)
      (fun E f s => let* '(xs, s) := exs (ex E f) body s in let* '(ys, s) := for_each E (ex E f) p items body s in Ok (xs ++ ys, s))).
    apply (realises_blamed (fun E s => bind_node E p i s)). apply (proj1 (failures E)), M.
  - (* each *) intros name n drop c cl d _ _. apply (realises_ret [] (fun s => s)); auto.
  - intros name n drop v vs c xs c1 q _ H _ K cl d N D.
    apply (realises_ext _ (fun E f s => let* '(xs, s) := a_call name cl [v] E f s in k_each name cl vs d drop xs E f s)).
    { intros. apply each_eq, D. }
    refine (realises_bind (a_call name cl [v]) (k_each name cl vs d drop) c xs c1 _ (H cl N) _).
    apply (realises_changed (fun E f s => map_each (inv E f) d name cl vs s) (app (if drop xs then [] else xs)) (fun _ s => s) c1 q (K cl d N D)); reflexivity.
  - intros name n drop v vs c q r _ H F cl d N D.
    apply (realises_ext _ (fun E f s => let* '(xs, s) := a_call name cl [v] E f s in k_each name cl vs d drop xs E f s)).
    { intros. apply each_eq, D. }
    exact (realises_fails (a_call name cl [v]) (k_each name cl vs d drop) c q r (H cl N) F).
  - (* keys *) intros name n st c cl _. apply (realises_ret [] (fun s => s)); auto.
  - intros name n st v vs c k a c1 items c2 _ H A _ K cl N. specialize (H cl N). specialize (K cl N).
    apply (keys_realises name cl st v vs c (Ok ([k], c1)) _ H).
    refine (realises_bind _ (k_keys name cl st v vs) c [k] c1 _ (keys_first name cl st v c _ H) _).
    unfold k_keys. rewrite A.
    refine (realises_bind (fun E f s => sort_keys (inv E f) name cl st vs s) (fun items _ _ s => Ok ((a_val a, v) :: items, s)) c1 items c2 _ K _).
    apply realises_ret; auto.
  - intros name n st v vs c k a c1 q r _ H A _ K F cl N. specialize (H cl N). specialize (K cl N).
    apply (keys_realises name cl st v vs c (Ok ([k], c1)) _ H).
    refine (realises_bind _ (k_keys name cl st v vs) c [k] c1 _ (keys_first name cl st v c _ H) _).
    unfold k_keys. rewrite A.
    exact (realises_fails (fun E f s => sort_keys (inv E f) name cl st vs s) (fun items _ _ s => Ok ((a_val a, v) :: items, s)) c1 q r K F).
  - intros name n st v vs c k c1 _ H A cl N. specialize (H cl N).
    apply (keys_realises name cl st v vs c (Ok ([k], c1)) _ H).
    refine (realises_bind _ (k_keys name cl st v vs) c [k] c1 _ (keys_first name cl st v c _ H) _).
    apply realises_err. intros. unfold k_keys. rewrite A. reflexivity.
  - intros name n st v vs c ks c1 _ H L cl N. specialize (H cl N).
    apply (keys_realises name cl st v vs c (Ok (ks, c1)) _ H).
    refine (realises_bind _ (k_keys name cl st v vs) c ks c1 _ (keys_first name cl st v c _ H) _).
    apply realises_err. intros. unfold k_keys. destruct ks as [|k [|k2 ks]]; try reflexivity. contradiction L; reflexivity.
  - intros name n st v vs c e _ H cl N. specialize (H cl N).
    apply (keys_realises name cl st v vs c (Err e) _ H).
    eapply (realises_fails _ (k_keys name cl st v vs) c); [exact (keys_first name cl st v c _ H)|reflexivity].
  - intros name n st v vs c q r _ H NE F cl N. specialize (H cl N).
    apply (keys_realises name cl st v vs c q _ H).
    eapply (realises_fails _ (k_keys name cl st v vs) c); [exact (keys_first name cl st v c _ H)|].
    destruct q; try exact F. exfalso. eapply NE. reflexivity.
Qed.
End WithEnv.
