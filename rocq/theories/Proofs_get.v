(** * Proofs about [%get] *)

From Coq Require Import String List Ascii Bool Arith NArith Lia.
From Coq Require Import DecimalString DecimalNat.
From Verif Require Import Text Res Ast Args Env Scope State Bind Data Sorting Expander Numbers
  Spec_args Spec_expand Spec_builtin Spec_control Proofs_text Proofs_ast Proofs_run
  Proofs_eval Proofs_args Proofs_builtin Proofs_simple.
Import ListNotations.

(** ** Following a path *)

Lemma find_attr_iff item view m : find_attr item view = Some m <-> first_value item view m.
Proof.
  unfold find_attr. induction view as [|n view IH]; cbn [find].
  - split; [discriminate|]. intros H. inversion H.
  - destruct n as [a|a|a|a|l st ew es w|k v st w].
    1-5: rewrite IH; split; intros H; [apply fv_next; [congruence|exact H]|inversion H; assumption].
    destruct (beq item k) eqn:K.
    + apply beq_eq in K. subst. split.
      * intros H. inversion H; subst. constructor.
      * intros H. inversion H as [|? ? ? N]; subst; [reflexivity|]. exfalso. eapply N. reflexivity.
    + apply beq_neq in K. rewrite IH. split; intros H.
      * apply fv_next; [congruence|exact H].
      * inversion H; subst; [congruence|assumption].
Qed.

Lemma get_item_step item n : 
  (forall m, get_item item n = Ok m <-> step item n m) /\
  ((forall m, ~ step item n m) -> get_item item n = Err (EErr EGet (node_site n))).
Proof.
  unfold get_item. destruct (list_of n) as [view|] eqn:L.
  2: { split; [|reflexivity]. intros m. split; [discriminate|]. intros H.
       inversion H; subst; cbn in L; discriminate. }
  assert (N : exists st ew es w, n = Lst view st ew es w).
  { destruct n; try discriminate. cbn in L. inversion L; subst. eauto. }
  destruct N as [st [ew [es [w ->]]]].
  set (by_index := match parse_usize item with
        | Some i => if (i <? N.of_nat (length view))%N then nth_error view (N.to_nat i) else None
        | None => None end).
  assert (B : (exists i m, index_of item view i /\ nth_error view i = Some m /\ by_index = Some m) \/
              ((forall i, ~ index_of item view i) /\ by_index = None)).
  { unfold by_index, index_of. destruct (parse_usize item) as [k|].
    - destruct (k <? N.of_nat (length view))%N eqn:K.
      + apply N.ltb_lt in K. assert (H : N.to_nat k < length view) by lia.
        destruct (nth_error view (N.to_nat k)) as [m|] eqn:M; [|apply nth_error_None in M; lia].
        left. exists (N.to_nat k), m. split; [eauto|]. auto.
      + apply N.ltb_ge in K. right. split; [|reflexivity]. intros i [k' [H [<- H2]]].
        inversion H; subst. lia.
    - right. split; [|reflexivity]. intros i [k' [H _]]. discriminate. }
  assert (FV : forall m m', first_value item view m -> first_value item view m' -> m = m').
  { intros m m' A C. apply find_attr_iff in A, C. congruence. }
  destruct B as [[i [m [I [M ->]]]] | [NI ->]].
  - split.
    + intros m'. split.
      * intros H. inversion H; subst. eapply step_index; eauto.
      * intros H. inversion H as [? ? ? ? ? i' ? I' M'|? ? ? ? ? ? NI' ?]; subst.
        -- destruct I as [k [K1 [K2 _]]]. destruct I' as [k' [K1' [K2' _]]]. congruence.
        -- exfalso. eapply NI'; eauto.
    + intros H. exfalso. eapply H. eapply step_index; eauto.
  - destruct (find_attr item view) as [m|] eqn:F.
    + apply find_attr_iff in F. split.
      * intros m'. split.
        -- intros H. inversion H; subst. apply step_key; assumption.
        -- intros H. inversion H as [? ? ? ? ? i' ? I' M'|? ? ? ? ? ? NI' F']; subst; [exfalso; eapply NI; eauto|].
           rewrite (FV _ _ F F'). reflexivity.
      * intros H. exfalso. eapply H. apply step_key; eauto.
    + split; [|reflexivity]. intros m'. split; [discriminate|].
      intros H. inversion H as [? ? ? ? ? i' ? I' M'|? ? ? ? ? ? NI' F']; subst; [exfalso; eapply NI; eauto|].
      apply find_attr_iff in F'. congruence.
Qed.

Lemma get_path_reaches path : forall n,
  (forall m, get_path path n = Ok m <-> reaches path n m) /\
  ((forall m, ~ reaches path n m) -> exists st, get_path path n = Err (EErr EGet st)).
Proof.
  induction path as [|item path IH]; intros n; cbn [get_path].
  - split.
    + intros m. split; intros H; inversion H; subst; [constructor|reflexivity].
    + intros H. exfalso. eapply H. constructor.
  - destruct (get_item_step item n) as [A Bd].
    destruct (get_item item n) as [k|e|p| |] eqn:G; cbn [bind].
    + destruct (IH k) as [I1 I2]. assert (K : step item n k) by (apply A; reflexivity).
      assert (U : forall k', step item n k' -> k' = k).
      { intros k' H. apply A in H. congruence. }
      split.
      * intros m. rewrite I1. split; [intros H; econstructor; eauto|].
        intros H. inversion H; subst. match goal with S : step _ _ ?x |- _ => rewrite <- (U x S) end. assumption.
      * intros H. apply I2. intros m R. apply (H m). econstructor; eauto.
    + split.
      * intros m. split; [discriminate|]. intros H. inversion H; subst.
        match goal with S : step _ _ ?x |- _ => apply A in S; discriminate end.
      * intros _. exists (node_site n). apply Bd. intros m S. apply A in S. discriminate.
    + assert (Z : Panic p = Err (EErr EGet (node_site n)) :> res node).
      { apply Bd. intros m S. apply A in S. discriminate. } discriminate.
    + assert (Z : Hang = Err (EErr EGet (node_site n)) :> res node).
      { apply Bd. intros m S. apply A in S. discriminate. } discriminate.
    + assert (Z : OutOfFuel = Err (EErr EGet (node_site n)) :> res node).
      { apply Bd. intros m S. apply A in S. discriminate. } discriminate.
Qed.

Lemma reaches_app p q : forall n m, reaches (p ++ q) n m <-> exists k, reaches p n k /\ reaches q k m.
Proof.
  induction p as [|i p IH]; intros n m; cbn [app].
  - split.
    + intros H. exists n. split; [constructor|exact H].
    + intros [k [H1 H2]]. inversion H1; subst. exact H2.
  - split.
    + intros H. inversion H as [|? ? ? k ? S R]; subst. apply IH in R as [k' [R1 R2]].
      exists k'. split; [econstructor; eauto|exact R2].
    + intros [k [H1 H2]]. inversion H1 as [|? ? ? k' ? S R]; subst. econstructor; [exact S|].
      apply IH. eauto.
Qed.

Lemma reaches_fun p n m m' : reaches p n m -> reaches p n m' -> m = m'.
Proof. intros A C. apply (get_path_reaches p n) in A, C. congruence. Qed.

(** ** Splitting *)

Lemma split_char c s : split [c] s = split_from [c] 0 [] s.
Proof. reflexivity. Qed.

Lemma split_from_char c s : forall cur,
  exists first rest, split_from [c] 0 cur s = (cur ++ first) :: rest /\
    split_from [c] 0 [] s = first :: rest.
Proof.
  induction s as [|d s IH]; intros cur; cbn [split_from starts_with length Nat.sub].
  - exists [], []. rewrite app_nil_r. auto.
  - rewrite andb_true_r. destruct (ch c d).
    + exists [], (split_from [c] 0 [] s). rewrite app_nil_r. auto.
    + destruct (IH (cur ++ [d])) as [f [r [H1 H2]]]. destruct (IH [d]) as [f' [r' [H1' H2']]].
      rewrite H2 in H2'. inversion H2'; subst. exists ([d] ++ f'), r'.
      rewrite H1, <- app_assoc. auto.
Qed.

(** Pieces contain no separator, and joined by it they give the text. *)
Lemma split_char_spec c s : 
  separated [c] (split [c] s) = s /\ Forall (fun p => ~ In c p) (split [c] s) /\ split [c] s <> [].
Proof.
  rewrite split_char. induction s as [|d s IH].
  - cbn. split; [reflexivity|]. split; [|discriminate]. repeat constructor. intros [].
  - cbn [split_from starts_with length Nat.sub]. rewrite andb_true_r.
    destruct IH as [I1 [I2 I3]].
    destruct (ch c d) eqn:D.
    + apply ch_eq in D. subst. split; [|split; [|discriminate]].
      * destruct (split_from [d] 0 [] s) as [|x l] eqn:Q; [congruence|]. cbn in *. rewrite <- I1 at 1. reflexivity.
      * constructor; [intros []|exact I2].
    + apply ch_neq in D. destruct (split_from_char c s [d]) as [f [r [H1 H2]]]. cbn [app].
            rewrite H1. rewrite H2 in *. split; [|split; [|discriminate]].
      * cbn in *. rewrite <- I1 at 1. reflexivity.
      * inversion I2; subst. constructor; [|assumption]. cbn. intros [H|H]; [congruence|contradiction].
Qed.

Lemma split_char_app c x y : split [c] (x ++ c :: y) = split [c] x ++ split [c] y.
Proof.
  rewrite !split_char. induction x as [|d x IH]; cbn [app].
  - cbn [split_from starts_with length Nat.sub]. rewrite ch_refl. reflexivity.
  - cbn [split_from starts_with length Nat.sub]. rewrite andb_true_r. destruct (ch c d).
    + cbn [app]. rewrite IH. reflexivity.
    + destruct (split_from_char c (x ++ c :: y) [d]) as [f [r [H1 H2]]].
      destruct (split_from_char c x [d]) as [f' [r' [H1' H2']]]. cbn [app].
      rewrite H1, H1'. rewrite H2, H2' in IH. cbn in IH. inversion IH; subst. reflexivity.
Qed.

Lemma split_no_sep c x : ~ In c x -> split [c] x = [x].
Proof.
  rewrite split_char. intros N. 
  assert (G : forall cur, split_from [c] 0 cur x = [cur ++ x]).
  { induction x as [|d x IH]; intros cur; cbn [split_from starts_with]; [rewrite app_nil_r; reflexivity|].
    rewrite andb_true_r. destruct (ch c d) eqn:D; [apply ch_eq in D; subst; exfalso; apply N; left; reflexivity|].
    rewrite IH; [rewrite <- app_assoc; reflexivity|]. intros H. apply N. right. exact H. }
  apply G.
Qed.

(** ** Printed numbers *)

Lemma digits_from_uint u : forall acc,
  digits_from acc (b (NilEmpty.string_of_uint u)) = Some (N.of_nat (Nat.of_uint_acc u (N.to_nat acc))).
Proof.
  induction u as [|u IH|u IH|u IH|u IH|u IH|u IH|u IH|u IH|u IH|u IH]; intros acc.
  { cbn. f_equal. lia. }
  all: cbn [NilEmpty.string_of_uint b list_ascii_of_string digits_from].
  all: match goal with |- context [digit ?c] => let d := eval vm_compute in (digit c) in change (digit c) with d end.
  all: change (list_ascii_of_string (NilEmpty.string_of_uint u)) with (b (NilEmpty.string_of_uint u)).
  all: cbv iota beta; rewrite IH.
  all: cbn [Nat.of_uint_acc]; do 2 f_equal; f_equal; rewrite PeanoNat.Nat.tail_mul_spec; lia.
Qed.

Lemma digits_show_nat i : digits (show_nat i) = Some (N.of_nat i).
Proof.
  unfold show_nat. rewrite <- (Unsigned.of_to i) at 2.
  set (u := Nat.to_uint i) in *. clearbody u.
  destruct u; [reflexivity| ..].
  all: match goal with |- context [NilZero.string_of_uint ?x] =>
    change (NilZero.string_of_uint x) with (NilEmpty.string_of_uint x);
    pose proof (digits_from_uint x 0) as H; unfold digits; cbn [b NilEmpty.string_of_uint list_ascii_of_string] in *;
    exact H end.
Qed.

Lemma show_nat_head i c r : show_nat i = c :: r -> digit c <> None.
Proof.
  intros H D. pose proof (digits_show_nat i) as Q. unfold digits in Q. rewrite H in Q.
  cbn [digits_from] in Q. rewrite D in Q. discriminate.
Qed.

Lemma parse_show i : (N.of_nat i < 2 ^ 64)%N -> parse_usize (show_nat i) = Some (N.of_nat i).
Proof.
  intros L. unfold parse_usize. destruct (show_nat i) as [|c r] eqn:S.
  - pose proof (digits_show_nat i) as H. rewrite S in H. discriminate.
  - pose proof (show_nat_head i c r S) as D.
    destruct (ch c "+") eqn:P; [apply ch_eq in P; subst; exfalso; apply D; reflexivity|].
    rewrite <- S, digits_show_nat. apply N.ltb_lt in L. rewrite L. reflexivity.
Qed.

(** An index in range selects the element. *)
Lemma step_nth i view st ew es w m :
  (N.of_nat i < 2 ^ 64)%N -> nth_error view i = Some m -> step (show_nat i) (Lst view st ew es w) m.
Proof.
  intros L H. apply step_index with (i := i); [|exact H]. exists (N.of_nat i).
  split; [apply parse_show, L|]. split; [lia|]. apply nth_error_Some. congruence.
Qed.

(** ** The macro *)

Lemma accepted_get vs :
  accepted rules_get vs <->
  exists p v, positionals vs = [p; v] /\ literal p /\
    options vs (fun k v => k = b "separator" /\ literal v).
Proof.
  rewrite (accepted_alt _ _ wf_get). split.
  - intros [A [B M]].
    assert (G : given (PInt 2) vs <> None).
    { apply M with (r := mandatory 2 (TAny [])) (t := TAny []); [rule|reflexivity]. }
    cbn in G. destruct (positionals vs) as [|p [|v [|x rest]]] eqn:P; cbn in G; try congruence.
    + exists p, v. split; [reflexivity|]. split.
      * pose proof (A 0 p eq_refl) as A1. apply fits_lit, A1.
      * intros k w st ws I. specialize (B _ _ _ _ I). revert B. table.
        destruct (beq k (b "separator")) eqn:K; cbn -[fits b].
        -- apply beq_eq in K. intros F. split; [exact K|]. apply fits_lit, F.
        -- intros [t [Q F]]. inversion Q.
    + exfalso. destruct (A 2 x eq_refl) as [t [Q _]]. discriminate.
  - intros [p [v [P [L O]]]]. split; [|split].
    + intros j q H. rewrite P in H. destruct j as [|[|j]]; cbn in H; try (inversion H; subst); table.
      * apply fits_lit, L.
      * left. reflexivity.
      * destruct j; discriminate.
    + intros k w st ws I. destruct (O _ _ _ _ I) as [-> T]. table. apply fits_lit, T.
    + intros pos r t [[<-|[<-|[<-|[]]]] Hp] Ht; try discriminate; destruct Hp as [<-|[]]; cbn; rewrite P; discriminate.
Qed.

Section WithEnv.
Variable E : env.

Lemma eval_get args n s r :
  is_call (b "get") args n ->
  eval E n s r <->
  exists q, evals E (received args) (entered n s) q /\
    match q with
    | Ok (vs, s1) =>
        (exists p path v, positionals vs = [p; v] /\ atomic p = Some path /\
           options vs (fun k v => k = b "separator" /\ literal v) /\
           let items := split (chosen (b "separator") (b "/") vs) (a_val path) in
           ((exists m, reaches items v m /\ r = Ok ([m], noted n s s1)) \/
            ((forall m, ~ reaches items v m) /\ r = bind (get_path items v) (fun m => Ok ([m], noted n s s1))))) \/
        (~ accepted rules_get vs /\ exists e, r = Err e /\ arguments rules_get n vs = Err e)
    | _ => fails q r
    end.
Proof.
  intros C.
  rewrite (eval_eager E (b "get") BGet rules_get
    (fun c x _ s => let* path := need as_atom (PInt 1) x in
       let* n := need as_node (PInt 2) x in
       let* sep := want as_atom (PStr (b "separator")) x in
       let* m := get_path (split (val_or (b "/") sep) (a_val path)) n in
       Ok ([m], s)) args n s r eq_refl (fun _ _ _ _ _ => eq_refl) C).
  assert (V : forall vs, val_or (b "/")
     (match keyword_value (b "separator") vs with Some v => atomic v | None => None end)
     = chosen (b "separator") (b "/") vs).
  { intros vs. unfold chosen. destruct (keyword_value (b "separator") vs) as [v|]; [|reflexivity].
    destruct (atomic v); reflexivity. }
  assert (R : forall vs x, arguments rules_get n vs = Ok x ->
    exists p path v, positionals vs = [p; v] /\ atomic p = Some path /\
      options vs (fun k v => k = b "separator" /\ literal v) /\
      need as_atom (PInt 1) x = Ok path /\ need as_node (PInt 2) x = Ok v /\
      want as_atom (PStr (b "separator")) x =
        Ok (match keyword_value (b "separator") vs with Some v => atomic v | None => None end)).
  { intros vs x X. destruct (arguments_ok _ _ _ _ wf_get X) as [A _].
    apply accepted_get in A as [p [v [P [L O]]]].
    destruct (atomic p) as [path|] eqn:Ap; [|exfalso; apply L; exact Ap].
    exists p, path, v. split; [exact P|]. split; [exact Ap|]. split; [exact O|]. split; [|split].
    - apply (need_atom _ _ _ _ wf_get X (PInt 1) (mandatory 1 lit) p); [rule|cbn; rewrite P; reflexivity|exact Ap|reflexivity].
    - apply (need_node _ _ _ _ wf_get X (PInt 2) (mandatory 2 (TAny [])) v []); [rule|cbn; rewrite P; reflexivity|reflexivity].
    - apply (want_atom _ _ _ _ wf_get X (PStr (b "separator")) (option_named (b "separator") lit)); [rule|reflexivity]. }
  split.
  - intros [q [Q [-> N]]]. exists q. split; [exact Q|]. destruct q as [[vs s1]|e|p| |]; cbn [bind fails] in *; try reflexivity; [|congruence].
    destruct (arguments_cases rules_get n vs wf_get) as [[A [x X]] | [A [e X]]].
    + left. destruct (R vs x X) as [p [path [v [P [Ap [O [X1 [X2 X3]]]]]]]].
      exists p, path, v. split; [exact P|]. split; [exact Ap|]. split; [exact O|]. cbv zeta.
      rewrite X. cbn [bind]. rewrite X1, X2, X3. cbn [bind]. rewrite V.
      destruct (get_path_reaches (split (chosen (b "separator") (b "/") vs) (a_val path)) v) as [G1 G2].
      destruct (get_path _ v) as [m|e|pn| |] eqn:G.
      * left. exists m. split; [apply G1; reflexivity|reflexivity].
      * right. split; [|reflexivity]. intros m H. apply G1 in H. discriminate.
      * exfalso. destruct G2 as [st G2]; [|discriminate]. intros m H. apply G1 in H. discriminate.
      * exfalso. destruct G2 as [st G2]; [|discriminate]. intros m H. apply G1 in H. discriminate.
      * exfalso. destruct G2 as [st G2]; [|discriminate]. intros m H. apply G1 in H. discriminate.
    + right. split; [exact A|]. exists e. rewrite X. auto.
  - intros [q [Q H]]. exists q. split; [exact Q|]. destruct q as [[vs s1]|e|p| |]; cbn [bind fails] in *;
      try (subst; split; [reflexivity|discriminate]); [|contradiction].
    destruct H as [[p [path [v [P [Ap [O H]]]]]] | [A [e [-> X]]]].
    + destruct (arguments_spec rules_get n vs wf_get) as [A _].
      destruct A as [x [X _]].
      { apply accepted_get. exists p, v. split; [exact P|]. split; [unfold literal; congruence|exact O]. }
      destruct (R vs x X) as [p' [path' [v' [P' [Ap' [O' [X1 [X2 X3]]]]]]]].
      rewrite P in P'. inversion P'; subst. rewrite Ap in Ap'. inversion Ap'; subst.
      rewrite X. cbn [bind]. rewrite X1, X2, X3. cbn [bind]. rewrite V. cbv zeta in H.
      destruct (get_path_reaches (split (chosen (b "separator") (b "/") vs) (a_val path')) v') as [G1 G2].
      destruct H as [[m [H ->]] | [H ->]].
      * apply G1 in H. rewrite H. split; [reflexivity|discriminate].
      * split; [reflexivity|]. destruct (G2 H) as [st ->]. discriminate.
    + rewrite X. split; [reflexivity|discriminate].
Qed.
End WithEnv.
