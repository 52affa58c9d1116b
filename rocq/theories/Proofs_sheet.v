(** * Proofs about style sheets *)

From Coq Require Import String List Ascii Bool Arith Lia.
From Verif Require Import Text Utf8 Res Ast Debug Format Spec_tree Spec_output Spec_css
  Proofs_text Proofs_ast Proofs_css Proofs_white.
Import ListNotations.

Lemma join_spread sep l : join sep l = spread sep l.
Proof.
  destruct l as [|x l]; [reflexivity|]. cbn [spread]. revert x.
  induction l as [|y l IH]; intros x; [cbn; rewrite app_nil_r; reflexivity|].
  change (join sep (x :: y :: l)) with (x ++ sep ++ join sep (y :: l)). rewrite IH.
  cbn [flat_map]. rewrite <- app_assoc. reflexivity.
Qed.

Lemma mem_in x l : mem x l = true <-> In x l.
Proof.
  unfold mem. rewrite existsb_exists. split.
  - intros [y [I E]]. apply beq_eq in E. congruence.
  - intros I. exists x. split; [exact I|apply beq_refl].
Qed.
Lemma mem_out x l : mem x l = false <-> ~ In x l.
Proof. rewrite <- mem_in. destruct (mem x l); split; congruence. Qed.
Lemma functions_in x : In x css_functions <-> In x functions.
Proof.
  assert (A : forallb (fun y => mem y functions) css_functions = true) by (vm_compute; reflexivity).
  assert (B : forallb (fun y => mem y css_functions) functions = true) by (vm_compute; reflexivity).
  rewrite forallb_forall in A, B. split; intros I; apply mem_in; auto.
Qed.
Lemma line_in x : line_rule x = true <-> In x line_rules.
Proof. exact (mem_in x line_rules). Qed.
Lemma nesting_in x : nesting_rule x = true <-> In x nesting_rules.
Proof. exact (mem_in x nesting_rules). Qed.
Lemma line_out x : line_rule x = false <-> ~ In x line_rules.
Proof. exact (mem_out x line_rules). Qed.
Lemma nesting_out x : nesting_rule x = false <-> ~ In x nesting_rules.
Proof. exact (mem_out x nesting_rules). Qed.

Lemma ok_inj {A} (x y : A) : Ok x = Ok y -> x = y.
Proof. congruence. Qed.

Section Sheet.
Variable printable : bytes -> bool.
Notation css_value := (css_value printable).
Notation css_props := (css_props printable).
Notation css_rule := (css_rule printable).
Notation css_gen := (css_gen printable).
Notation css_oneline := (css_oneline printable).
Notation css_args := (css_args printable).
Notation Value := (Value printable).
Notation Values := (Values printable).
Notation NoValue := (NoValue printable).
Notation Param := (Param printable).
Notation NoParam := (NoParam printable).
Notation Property := (Property printable).
Notation Rule := (Rule printable).
Notation Rules := (Rules printable).
Notation NoRule := (NoRule printable).
Notation NoSheet := (NoSheet printable).

(** ** Values *)

Definition written (s : bytes) : bytes := if has_white s then debug_str printable s else s.
Lemma literal_is s : utf8 s -> literal printable s (written s).
Proof.
  intros U. unfold written. destruct (has_white s) eqn:W.
  - apply lit_quoted; [apply has_white_iff, W|apply debug_quoted, U].
  - apply lit_bare. intros C. apply has_white_iff in C. congruence.
Qed.
Lemma literal_eq s t : literal printable s t -> t = written s.
Proof.
  unfold written. intros [s' C|s' q C Q].
  - destruct (has_white s') eqn:W; [|reflexivity]. apply has_white_iff in W. contradiction.
  - apply has_white_iff in C. rewrite C. apply quoted_debug, Q.
Qed.

Lemma separator_is h : separator h (if mem h css_comma_delim then b ", " else b " ").
Proof.
  destruct (mem h css_comma_delim) eqn:M; constructor.
  - apply mem_in in M. exact M.
  - apply mem_out in M. exact M.
Qed.
Lemma separator_eq h sep : separator h sep -> sep = if mem h css_comma_delim then b ", " else b " ".
Proof.
  intros [f I|f I].
  - change [b "rgba"; b "hsla"] with css_comma_delim in I. apply mem_in in I. rewrite I. reflexivity.
  - change [b "rgba"; b "hsla"] with css_comma_delim in I. apply mem_out in I. rewrite I. reflexivity.
Qed.
Lemma comma_function h : mem h css_functions = false -> mem h css_comma_delim = false.
Proof.
  intros M. apply mem_out. intros I. apply mem_out in M. apply M. apply mem_in.
  destruct I as [<-|[<-|[]]]; vm_compute; reflexivity.
Qed.

Lemma applied_is h l : applied h l (css_apply h l).
Proof.
  unfold css_apply. destruct (mem h css_functions) eqn:F.
  - apply mem_in, functions_in in F. eapply ap_function; [exact F|apply separator_is|].
    rewrite <- join_spread. apply trim_trimmed.
  - assert (N : ~ In h functions) by (intros I; apply functions_in, mem_in in I; congruence).
    rewrite (comma_function h F).
    destruct (mem h binary_operators) eqn:O.
    + rewrite join_spread. apply ap_operator; [exact N|apply mem_in in O; exact O].
    + apply ap_other; [exact N|apply mem_out in O; exact O|]. rewrite <- join_spread. apply trim_trimmed.
Qed.
Lemma applied_eq h l s : applied h l s -> s = css_apply h l.
Proof.
  unfold css_apply. intros [h' l' sep t F S T|h' l' F O|h' l' t F O T].
  - apply functions_in, mem_in in F. rewrite F. apply separator_eq in S. subst sep.
    apply trimmed_trim in T. rewrite join_spread, T. reflexivity.
  - assert (M : mem h' css_functions = false) by (apply mem_out; intros I; apply functions_in in I; contradiction).
    rewrite M. apply mem_in in O. change (mem h' operators) with (mem h' binary_operators) in O.
    rewrite O, join_spread. reflexivity.
  - assert (M : mem h' css_functions = false) by (apply mem_out; intros I; apply functions_in in I; contradiction).
    rewrite M, (comma_function h' M). apply mem_out in O. change (mem h' operators) with (mem h' binary_operators) in O.
    rewrite O. apply trimmed_trim in T. rewrite join_spread, T. reflexivity.
Qed.

Definition decent (n : node) : Prop := Forall utf8 (values n).
Definition decents (l : list node) : Prop := Forall utf8 (flat_map values l).
Lemma decents_cons n l : decents (n :: l) <-> decent n /\ decents l.
Proof. unfold decents, decent. cbn [flat_map]. apply Forall_app. Qed.
Lemma decents_app x y : decents (x ++ y) <-> decents x /\ decents y.
Proof. unfold decents. rewrite flat_map_app. apply Forall_app. Qed.

(** What the conversion of a value can be. *)
Definition value_case (n : node) : Prop :=
  (exists s, css_value n = Ok s /\ Value n s) \/
  (exists st, css_value n = Err (EErr ECssAttrInValue st) /\ NoValue n st).

Lemma values_case l : Forall value_case l ->
  (exists ss, mapr css_value l = Ok ss /\ Values l ss) \/
  (exists x n r ss st, l = x ++ n :: r /\ Values x ss /\ NoValue n st /\
     mapr css_value l = Err (EErr ECssAttrInValue st)).
Proof.
  induction 1 as [|n l [[s [C V]]|[st [C V]]] F IH].
  - left. exists []. split; [reflexivity|constructor].
  - cbn [mapr]. rewrite C. cbn [bind].
    destruct IH as [[ss [M Vs]]|(x & m & r & ss & st & -> & X & N & M)]; rewrite M; cbn [bind].
    + left. exists (s :: ss). split; [reflexivity|constructor; assumption].
    + right. exists (n :: x), m, r, (s :: ss), st. split; [reflexivity|]. split; [constructor; assumption|].
      split; [exact N|reflexivity].
  - right. cbn [mapr]. rewrite C. exists [], n, l, [], st. repeat split; [constructor|exact V].
Qed.

Lemma value_cases n : decent n -> value_case n.
Proof.
  induction n as [a|a|a|a|ns st ew es w IH|k v st w _] using node_ind'; intros D.
  1-3: left; eexists; split; [reflexivity|]; constructor; apply literal_is; inversion D; assumption.
  - left. eexists. split; [reflexivity|constructor].
  - destruct ns as [|hd tl]; [left; eexists; split; [reflexivity|constructor]|].
    assert (F : Forall value_case (hd :: tl)).
    { change (decents (hd :: tl)) in D. revert IH D. generalize (hd :: tl). intros l IH D.
      induction IH as [|n l H IH IHl]; constructor; apply decents_cons in D as [D1 D2]; auto. }
    inversion F as [|? ? [[h [C V]]|[s' [C V]]] F']; subst; unfold value_case; rewrite css_value_list, C; cbn [bind].
    + destruct (values_case tl F') as [[ss [M Vs]]|(x & m & r & ss & s' & -> & X & N & M)]; rewrite M; cbn [bind].
      * left. eexists. split; [reflexivity|]. eapply v_list; [exact V|exact Vs|apply applied_is].
      * right. eexists. split; [reflexivity|]. apply (nv_inside printable (hd :: x) m r _ _ _ _ _ (h :: ss)); [|exact N].
        constructor; assumption.
    + right. eexists. split; [reflexivity|]. apply (nv_inside printable [] hd tl _ _ _ _ _ []); [constructor|exact V].
  - right. eexists. split; [reflexivity|constructor].
Qed.

Scheme value_mut := Induction for Spec_css.Value Sort Prop
  with values_mut := Induction for Spec_css.Values Sort Prop.

Lemma value_back n s : Value n s -> css_value n = Ok s.
Proof.
  induction 1 as [a s L|a s L|a s L|a|st ew es w|hd tl st ew es w h l s V IH Vs IHs A|
                  |n s ns l V IH Vs IHs] using value_mut
    with (P0 := fun ns l _ => mapr css_value ns = Ok l); try reflexivity.
  1-3: rewrite (literal_eq _ _ L); reflexivity.
  - rewrite css_value_list, IH. cbn [bind]. rewrite IHs. cbn [bind]. rewrite (applied_eq _ _ _ A). reflexivity.
  - cbn [mapr]. rewrite IH. cbn [bind]. rewrite IHs. reflexivity.
Qed.
Lemma values_back l ss : Values l ss -> mapr css_value l = Ok ss.
Proof.
  induction 1 as [|n s ns l V Vs IH]; [reflexivity|]. cbn [mapr]. rewrite (value_back n s V). cbn [bind].
  rewrite IH. reflexivity.
Qed.
Lemma mapr_stop {A B} (f : A -> res B) x n r ys e : mapr f x = Ok ys -> f n = Err e -> mapr f (x ++ n :: r) = Err e.
Proof.
  revert ys. induction x as [|y x IH]; intros ys M N; cbn [app mapr] in *; [rewrite N; reflexivity|].
  destruct (f y) as [z| | | |]; try discriminate M. cbn [bind] in *.
  destruct (mapr f x) as [zs| | | |]; try discriminate M. rewrite (IH zs eq_refl N). reflexivity.
Qed.
Lemma novalue_back n st : NoValue n st -> css_value n = Err (EErr ECssAttrInValue st).
Proof.
  induction 1 as [k v st w|l x r st ew es w st' ss Vs N IH]; [reflexivity|].
  pose proof (mapr_stop css_value l x r ss _ (values_back l ss Vs) IH) as M.
  destruct (l ++ x :: r) as [|hd tl] eqn:E; [destruct l; discriminate E|].
  rewrite css_value_list. cbn [mapr] in M. destruct (css_value hd) as [h|e| | |]; try discriminate M; cbn [bind] in *.
  - destruct (mapr css_value tl) as [t|e| | |]; try discriminate M; cbn [bind] in *. injection M as ->. reflexivity.
  - injection M as ->. reflexivity.
Qed.

(** ** Parameters and properties *)

Definition css_param (n : node) : res bytes :=
  match n with
  | Attr k v _ _ => let* y := css_value v in Ok (b "(" ++ k ++ b ": " ++ y ++ b ") ")
  | _ => let* y := css_value n in Ok (y ++ b " ")
  end.

Lemma param_cases n : decent n ->
  (exists s, css_param n = Ok s /\ Param n s) \/
  (exists st, css_param n = Err (EErr ECssAttrInValue st) /\ NoParam n st).
Proof.
  intros D. destruct n as [a|a|a|a|ns st ew es w|k v st w].
  1-5: match goal with |- context [css_param ?n] => destruct (value_cases n D) as [[s [C V]]|[st' [C V]]] end;
    unfold css_param; rewrite C; cbn [bind];
    [left; eexists; split; [reflexivity|apply pm_value, V]
    |right; eexists; split; [reflexivity|apply np_value; [discriminate|exact V]]].
  assert (Dv : decent v) by (inversion D; assumption).
  destruct (value_cases v Dv) as [[s [C V]]|[st' [C V]]]; cbn [css_param]; rewrite C; cbn [bind].
  - left. eexists. split; [reflexivity|constructor; exact V].
  - right. eexists. split; [reflexivity|constructor; exact V].
Qed.
Lemma param_back n s : Param n s -> css_param n = Ok s.
Proof.
  intros [k v st w s' V|n' s' V].
  - cbn [css_param]. rewrite (value_back _ _ V). reflexivity.
  - pose proof (value_back _ _ V) as C. destruct n'; unfold css_param; try (rewrite C; reflexivity).
    discriminate C.
Qed.
Lemma noparam_back n st : NoParam n st -> css_param n = Err (EErr ECssAttrInValue st).
Proof.
  intros [k v s w st' V|n' st' N V].
  - cbn [css_param]. rewrite (novalue_back _ _ V). reflexivity.
  - pose proof (novalue_back _ _ V) as C. destruct n'; unfold css_param; try (rewrite C; reflexivity).
    exfalso. eapply N. reflexivity.
Qed.

Lemma oneline_map l : css_oneline l = (let* xs := mapr css_param l in Ok (concat xs)).
Proof.
  induction l as [|n l IH]; [reflexivity|].
  change (css_oneline (n :: l)) with (let* x := css_param n in let* rest := css_oneline l in Ok (x ++ rest)).
  cbn [mapr]. destruct (css_param n) as [x| | | |]; try reflexivity. cbn [bind]. rewrite IH.
  destruct (mapr css_param l); reflexivity.
Qed.

Lemma params_cases l : decents l ->
  (exists ss, mapr css_param l = Ok ss /\ Forall2 Param l ss) \/
  (exists x n r ss st, l = x ++ n :: r /\ Forall2 Param x ss /\ NoParam n st /\
     mapr css_param l = Err (EErr ECssAttrInValue st)).
Proof.
  induction l as [|n l IH]; intros D; [left; exists []; split; [reflexivity|constructor]|].
  apply decents_cons in D as [D1 D2]. cbn [mapr].
  destruct (param_cases n D1) as [[s [C P]]|[st [C P]]]; rewrite C; cbn [bind].
  - destruct (IH D2) as [[ss [M F]]|(x & m & r & ss & st & -> & F & N & M)]; rewrite M; cbn [bind].
    + left. exists (s :: ss). split; [reflexivity|constructor; assumption].
    + right. exists (n :: x), m, r, (s :: ss), st. repeat split; auto.
  - right. exists [], n, l, [], st. repeat split; [constructor|exact P].
Qed.
Lemma params_back l ss : Forall2 Param l ss -> mapr css_param l = Ok ss.
Proof.
  induction 1 as [|n s l ss P F IH]; [reflexivity|]. cbn [mapr]. rewrite (param_back _ _ P). cbn [bind].
  rewrite IH. reflexivity.
Qed.

Lemma props_back l ps : Forall2 Property l ps -> forall r,
  css_props (l ++ r) = (let* t := css_props r in Ok (concat ps ++ t)).
Proof.
  induction 1 as [|n s l ps P F IH]; intros r; cbn [app concat].
  - destruct (css_props r); reflexivity.
  - destruct P as [k v st w y V]. cbn [Format.css_props]. rewrite (value_back _ _ V). cbn [bind]. rewrite IH.
    destruct (css_props r) as [t| | | |]; try reflexivity. cbn [bind]. rewrite <- !app_assoc. reflexivity.
Qed.

Lemma props_cases l : decents l ->
  (exists ps, css_props l = Ok (concat ps) /\ Forall2 Property l ps) \/
  (exists x k v st w r ps st', l = x ++ Attr k v st w :: r /\ Forall2 Property x ps /\ NoValue v st' /\
     css_props l = Err (EErr ECssAttrInValue st')) \/
  (exists x n r ps, l = x ++ n :: r /\ Forall2 Property x ps /\ (forall k v st w, n <> Attr k v st w) /\
     css_props l = Err (EErr ECssNotProperty (node_site n))).
Proof.
  induction l as [|n l IH]; intros D; [left; exists []; split; [reflexivity|constructor]|].
  apply decents_cons in D as [D1 D2].
  assert (O : (forall k v st w, n <> Attr k v st w) -> css_props (n :: l) = Err (EErr ECssNotProperty (node_site n)) ->
    exists x n0 r ps, n :: l = x ++ n0 :: r /\ Forall2 Property x ps /\ (forall k v st w, n0 <> Attr k v st w) /\
     css_props (n :: l) = Err (EErr ECssNotProperty (node_site n0))).
  { intros N E. exists [], n, l, []. repeat split; [constructor|exact N|exact E]. }
  destruct n as [a|a|a|a|ns st ew es w|k v st w].
  1-5: right; right; apply O; [discriminate|reflexivity].
  clear O. cbn [Format.css_props]. assert (Dv : decent v) by (inversion D1; assumption).
  destruct (value_cases v Dv) as [[s [C V]]|[st' [C V]]]; rewrite C; cbn [bind].
  - assert (P : Property (Attr k v st w) (b "  " ++ k ++ b ": " ++ s ++ b ";" ++ [LF])) by (constructor; exact V).
    destruct (IH D2) as [(ps & E & F)|[(x & k' & v' & t & w' & r & ps & st' & -> & F & N & E)|(x & n & r & ps & -> & F & N & E)]];
      rewrite E; cbn [bind].
    + left. exists ((b "  " ++ k ++ b ": " ++ s ++ b ";" ++ [LF]) :: ps). split; [|constructor; assumption].
      cbn [concat]. rewrite <- !app_assoc. reflexivity.
    + right. left. eexists (Attr k v st w :: x), k', v', t, w', r, _, st'.
      split; [reflexivity|]. split; [constructor; [exact P|exact F]|]. split; [exact N|reflexivity].
    + right. right. eexists (Attr k v st w :: x), n, r, _.
      split; [reflexivity|]. split; [constructor; [exact P|exact F]|]. split; [exact N|reflexivity].
  - right. left. exists [], k, v, st, w, l, [], st'. split; [reflexivity|]. split; [constructor|]. split; [exact V|reflexivity].
Qed.

(** ** Rules *)

Lemma list_dec n : a_list n \/ ~ a_list n.
Proof. destruct n; [right|right|right|right|left; repeat eexists|right]; intros (? & ? & ? & ? & ? & ?); discriminate. Qed.

(** The arguments of a nesting at-rule: parameters, then rules. *)
Lemma args_params rule l r ps : Forall (fun n => ~ a_list n) l -> Forall2 Param l ps ->
  css_args rule false (l ++ r) = (let* t := css_args rule false r in Ok (concat ps ++ t)).
Proof.
  intros N F. induction F as [|n s l ps P F IH]; cbn [app concat].
  - destruct (css_args rule false r); reflexivity.
  - inversion N as [|? ? Nn Nl]; subst. specialize (IH Nl). apply param_back in P.
    destruct n as [a|a|a|a|ns st ew es w|k v st w]; cbn [css_param] in P; cbn [Proofs_css.css_args].
    5: { exfalso. apply Nn. repeat eexists. }
    5: { destruct (css_value v) as [y| | | |]; try discriminate P. cbn [bind] in *. apply ok_inj in P. subst s.
         rewrite IH. destruct (css_args rule false r); try reflexivity. cbn [bind]. rewrite <- !app_assoc. reflexivity. }
    1-4: match goal with |- context [css_value ?n] => destruct (css_value n) as [y| | | |]; try discriminate P end;
      cbn [bind] in *; apply ok_inj in P; subst s; rewrite IH;
      destruct (css_args rule false r); try reflexivity; cbn [bind]; rewrite <- !app_assoc; reflexivity.
Qed.
Lemma args_noparam rule x r st : ~ a_list x -> NoParam x st ->
  css_args rule false (x :: r) = Err (EErr ECssAttrInValue st).
Proof.
  intros N P. apply noparam_back in P.
  destruct x as [a|a|a|a|ns s ew es w|k v s w]; cbn [css_param] in P; cbn [Proofs_css.css_args].
  5: { exfalso. apply N. repeat eexists. }
  5: { destruct (css_value v) as [y| | | |]; try discriminate P. cbn [bind] in *. congruence. }
  1-4: match goal with |- context [css_value ?n] => destruct (css_value n) as [y| | | |]; try discriminate P end;
      cbn [bind] in *; congruence.
Qed.

(** What follows the first rule. *)
Lemma args_late rule x r : ~ a_list x -> css_args rule true (x :: r) = Err (EErr ECssNotRule (node_site x)).
Proof.
  intros N. destruct x as [a|a|a|a|ns s ew es w|k v s w]; try reflexivity. exfalso. apply N. repeat eexists.
Qed.

Lemma rules_lists l s : Rules l s -> Forall a_list l.
Proof. induction l as [|n l IH] in s |- *; intros R; inversion R; subst; constructor; [repeat eexists|eauto]. Qed.

Lemma no_lists l : Forall a_list l -> Forall (fun n => ~ a_list n) l -> l = [].
Proof. intros [|n l' A F] N; [reflexivity|]. inversion N; contradiction. Qed.

(** A list divided where the lists begin. *)
Lemma divide l : exists x y, l = x ++ y /\ Forall (fun n => ~ a_list n) x /\
  match y with [] => True | n :: _ => a_list n end.
Proof.
  induction l as [|n l (x & y & -> & F & Y)]; [exists [], []; repeat split; constructor|].
  destruct (list_dec n) as [L|L].
  - exists [], (n :: x ++ y). repeat split; [constructor|exact L].
  - exists (n :: x), y. repeat split; [constructor; assumption|exact Y].
Qed.

(** Rules of a nesting at-rule after the parameters. *)
Definition brace (open : bool) : bytes := if open then [] else b "{" ++ [LF].

Definition stopped (q : res bytes) : Prop := match q with Ok _ => False | _ => True end.
Lemma stop_bind q k : stopped q -> bind q k = q.
Proof. destruct q; [intros []|reflexivity..]. Qed.
Lemma norule_stopped ns q : NoRule ns q -> stopped q.
Proof. induction 1; try exact I. assumption. Qed.

Definition rule_case (n : node) : Prop := forall ns st ew es w, n = Lst ns st ew es w ->
  (exists s, css_rule n = Ok s /\ Rule ns s) \/ (exists q, css_rule n = q /\ NoRule ns q).

Lemma rules_cases l : Forall rule_case l -> forall open,
  (exists s, Rules l s /\
     css_args css_rule open l = Ok (match l with [] => [] | _ => brace open end ++ s)) \/
  (exists x ns st ew es w r s q, l = x ++ Lst ns st ew es w :: r /\ Rules x s /\ NoRule ns q /\
     css_args css_rule open l = q) \/
  (exists x n r s, l = x ++ n :: r /\ Rules x s /\ ~ a_list n /\
     ((x = [] /\ open = false) \/ css_args css_rule open l = Err (EErr ECssNotRule (node_site n)))).
Proof.
  induction 1 as [|n l C F IH]; intros open.
  - left. exists []. split; [constructor|reflexivity].
  - destruct (list_dec n) as [(ns & st & ew & es & w & ->)|N].
    2: { right. right. exists [], n, l, []. split; [reflexivity|]. split; [constructor|]. split; [exact N|].
         destruct open; [right; apply args_late, N|left; auto]. }
    destruct (C ns st ew es w eq_refl) as [[s [R S]]|[q [R S]]]; cbn [Proofs_css.css_args]; rewrite R.
    2: { right. left. exists [], ns, st, ew, es, w, l, [], q. split; [reflexivity|]. split; [constructor|].
         split; [exact S|]. apply stop_bind. exact (norule_stopped ns q S). }
    cbn [bind].
    destruct (IH true) as [(t & T & E)|[(x & ns' & st' & ew' & es' & w' & r & t & q & -> & T & Q & E)|(x & m & r & t & -> & T & N & E)]].
    + left. exists (w ++ s ++ t). split; [constructor; assumption|].
      match goal with |- bind ?z _ = _ => change z with (css_args css_rule true l) end. rewrite E. cbn [bind].
      destruct l; cbn [brace app]; reflexivity.
    + right. left. exists (Lst ns st ew es w :: x), ns', st', ew', es', w', r, (w ++ s ++ t), q.
      split; [reflexivity|]. split; [constructor; assumption|]. split; [exact Q|].
      match goal with |- bind ?z _ = _ => change z with (css_args css_rule true (x ++ Lst ns' st' ew' es' w' :: r)) end.
      rewrite E. apply stop_bind. exact (norule_stopped ns' q Q).
    + right. right. exists (Lst ns st ew es w :: x), m, r, (w ++ s ++ t).
      split; [reflexivity|]. split; [constructor; assumption|]. split; [exact N|]. right.
      match goal with |- bind ?z _ = _ => change z with (css_args css_rule true (x ++ m :: r)) end.
      destruct E as [[_ Z]|E]; [discriminate Z|]. rewrite E. reflexivity.
Qed.

Lemma rule_cases n : decent n -> rule_case n.
Proof.
  induction n as [a|a|a|a|ns st ew es w IH|k v st w _] using node_ind'; intros D ns' st' ew' es' w' E; try discriminate E.
  injection E as <- <- <- <- <-. change (decents ns) in D.
  destruct ns as [|hd args]; [right; eexists; split; [reflexivity|constructor]|].
  rewrite css_rule_eq. destruct (atomic hd) as [a|] eqn:A; [|right; eexists; split; [reflexivity|constructor; exact A]].
  apply decents_cons in D as [Dh D]. inversion IH as [|? ? _ IHa]; subst.
  destruct (line_rule (a_val a)) eqn:LR.
  { apply line_in in LR. rewrite oneline_map.
    destruct (params_cases args D) as [[ss [M F]]|(x & n & r & ss & s' & -> & F & N & M)]; rewrite M; cbn [bind].
    - left. eexists. split; [reflexivity|]. apply r_line; assumption.
    - right. eexists. split; [reflexivity|]. eapply nr_line; eassumption. }
  apply line_out in LR.
  destruct (nesting_rule (a_val a)) eqn:NR.
  { apply nesting_in in NR. destruct (divide args) as (x & y & -> & X & Y).
    apply decents_app in D as [Dx Dy]. apply Forall_app in IHa as [_ IHy].
    assert (C : Forall rule_case y).
    { clear Y IH. induction IHy as [|n y H IHy' IHl]; constructor; apply decents_cons in Dy as [D1 D2]; auto. }
    destruct (params_cases x Dx) as [[ps [M P]]|(x1 & n & r & ss & s' & -> & F & N & M)].
    - rewrite (args_params css_rule x y ps X P).
      destruct (rules_cases y C false) as [(s & R & Q)|[(z & ns & s1 & e1 & e2 & w1 & r & s & q & -> & R & Q & Z)|(z & n & r & s & -> & R & N & [[-> _]|Z])]].
      + left. rewrite Q. cbn [bind]. eexists. split; [reflexivity|].
        replace (a_val a ++ b " " ++ (concat ps ++ match y with [] => [] | _ => brace false end ++ s) ++ b "}")
          with (a_val a ++ b " " ++ concat ps ++ match y with [] => [] | _ => b "{" ++ [LF] end ++ s ++ b "}")
          by (destruct y; cbn [brace]; rewrite <- ?app_assoc; reflexivity).
        apply r_nesting; assumption.
      + right. rewrite Z. exists q. split; [|eapply nr_nested; eassumption].
        assert (S := norule_stopped ns q Q). destruct q; try destruct S; reflexivity.
      + exfalso. exact (N Y).
      + right. rewrite Z. cbn [bind]. eexists. split; [reflexivity|]. eapply nr_late; try eassumption.
        intros ->. exact (N Y).
    - apply Forall_app in X as [X1 X2]. inversion X2 as [|? ? Nn _]; subst.
      right. rewrite <- app_assoc. cbn [app]. rewrite (args_params css_rule x1 (n :: r ++ y) ss X1 F).
      rewrite (args_noparam css_rule n (r ++ y) s' Nn N). cbn [bind]. eexists. split; [reflexivity|].
      eapply nr_param; eassumption. }
  apply nesting_out in NR.
  destruct (take_atoms_split args) as (sels & rest & -> & F & R).
  assert (TA : take_atoms (hd :: sels ++ rest) = a :: take_atoms (sels ++ rest)) by (cbn [take_atoms]; rewrite A; reflexivity).
  pose proof (forall2_length _ _ _ _ _ F) as Len.
  unfold prop_index. rewrite TA. set (sl := take_atoms (sels ++ rest)) in *. clearbody sl.
  cbn [length]. rewrite app_length, <- Len.
  destruct rest as [|p rest].
  - rewrite Nat.add_0_r, Nat.ltb_irrefl, app_nil_r. cbn [length].
    destruct (exists_last (l := hd :: sels)) as [init [last El]]; [discriminate|].
    assert (LI : S (length sels) - 1 = length init).
    { assert (Q : length (hd :: sels) = length (init ++ [last])) by congruence. rewrite app_length in Q. cbn in Q. lia. }
    rewrite LI, El, skipn_app, skipn_all, Nat.sub_diag. cbn [skipn app].
    assert (AL : Forall (fun n => atomic n <> None) (hd :: sels)).
    { constructor; [congruence|]. clear - F. induction F; constructor; [congruence|assumption]. }
    assert (AX : atomic last <> None).
    { rewrite El in AL. apply Forall_app in AL as [_ AL]. inversion AL; assumption. }
    right. exists (Err (EErr ECssNotProperty (node_site last))). split.
    + destruct last; try reflexivity; exfalso; apply AX; reflexivity.
    + rewrite <- El. eapply nr_no_property; eauto.
  - assert (Q : (S (length sels) <? S (length sels + length (p :: rest))) = true) by (apply Nat.ltb_lt; cbn; lia).
    rewrite Q. replace (S (S (length sels)) - 1) with (length (hd :: sels)) by (cbn; lia).
    change (hd :: sels ++ p :: rest) with ((hd :: sels) ++ p :: rest).
    rewrite skipn_app, skipn_all, Nat.sub_diag. cbn [skipn app].
    apply decents_app in D as [_ D].
    destruct (props_cases (p :: rest) D) as [(ps & E & P)|[(x & k & v & t & w1 & r & ps & s' & X & P & N & E)|(x & n & r & ps & X & P & N & E)]];
      rewrite E; cbn [bind].
    + left. eexists. split; [reflexivity|].
      replace (selector_text (a :: sl)) with (concat (map (fun a => a_val a ++ b " ") (a :: sl)))
        by (symmetry; apply flat_map_concat_map).
      apply r_ordinary; auto. discriminate.
    + right. rewrite X. eexists. split; [reflexivity|]. eapply nr_value; eassumption.
    + right. rewrite X. eexists. split; [reflexivity|]. eapply nr_property; try eassumption.
      intros ->. cbn [app] in X. injection X as -> _. exact R.
Qed.

(** ** Sheets *)

Lemma sheet_cases t : decents t ->
  (exists s, css_gen t = Ok s /\ Rules t s) \/ (exists q, css_gen t = q /\ NoSheet t q).
Proof.
  induction t as [|n t IH]; intros D; [left; exists []; split; [reflexivity|constructor]|].
  apply decents_cons in D as [D1 D2]. destruct (list_dec n) as [(ns & st & ew & es & w & ->)|N].
  - destruct (rule_cases _ D1 ns st ew es w eq_refl) as [[s [R S]]|[q [R S]]]; cbn [Format.css_gen]; rewrite R; cbn [bind].
    + destruct (IH D2) as [[s' [R' S']]|[q [R' S']]]; rewrite R'.
      * left. eexists. split; [reflexivity|]. constructor; assumption.
      * right. exists q. destruct S' as [l ns' st' ew' es' w' r s' q Q1 Q2|l x r s' Q1 Q2].
        -- split; [apply stop_bind; exact (norule_stopped _ _ Q2)|].
           apply (ns_rule printable (Lst ns st ew es w :: l) _ _ _ _ _ _ (w ++ s ++ s')); [constructor|]; assumption.
        -- split; [reflexivity|].
           apply (ns_other printable (Lst ns st ew es w :: l) _ _ (w ++ s ++ s')); [constructor|]; assumption.
    + right. exists q. split; [apply stop_bind; exact (norule_stopped _ _ S)|].
      apply (ns_rule printable [] _ _ _ _ _ _ []); [constructor|exact S].
  - right. exists (Err (EErr ECssSpecialBad (node_site n))). split.
    + destruct n; try reflexivity. exfalso. apply N. repeat eexists.
    + apply (ns_other printable [] _ _ []); [constructor|exact N].
Qed.

(** ** The other direction: the relations determine the result *)

Lemma atoms_all more sels rest : Forall2 (fun n a => atomic n = Some a) more sels ->
  match rest with [] => True | n :: _ => atomic n = None end -> take_atoms (more ++ rest) = sels.
Proof.
  intros F R. induction F as [|n a more sels A F IH]; cbn [app].
  - destruct rest as [|n rest]; [reflexivity|]. cbn [take_atoms]. rewrite R. reflexivity.
  - cbn [take_atoms]. rewrite A, IH. reflexivity.
Qed.

Lemma ordinary_eq hd a more sels rest st ew es w : atomic hd = Some a ->
  ~ In (a_val a) line_rules -> ~ In (a_val a) nesting_rules ->
  Forall2 (fun n a => atomic n = Some a) more sels ->
  match rest with [] => False | n :: _ => atomic n = None end ->
  css_rule (Lst (hd :: more ++ rest) st ew es w) =
  (let* body := css_props rest in
   Ok (concat (map (fun a => a_val a ++ b " ") (a :: sels)) ++ b "{" ++ [LF] ++ body ++ b "}")).
Proof.
  intros A LR NR F R. rewrite css_rule_eq, A. apply line_out in LR. apply nesting_out in NR. rewrite LR, NR.
  destruct rest as [|p rest]; [destruct R|]. pose proof (forall2_length _ _ _ _ _ F) as Len.
  unfold prop_index. cbn [take_atoms]. rewrite A, (atoms_all more sels (p :: rest) F R).
  cbn [length]. rewrite app_length, <- Len.
  assert (Q : (S (length more) <? S (length more + length (p :: rest))) = true) by (apply Nat.ltb_lt; cbn; lia).
  rewrite Q. replace (S (S (length more)) - 1) with (length (hd :: more)) by (cbn; lia).
  change (hd :: more ++ p :: rest) with ((hd :: more) ++ p :: rest).
  rewrite skipn_app, skipn_all, Nat.sub_diag. cbn [skipn app].
  unfold selector_text. rewrite flat_map_concat_map. reflexivity.
Qed.

Scheme rule_mut := Induction for Spec_css.Rule Sort Prop
  with rules_mut := Induction for Spec_css.Rules Sort Prop.

Definition args_done (l : list node) (s : bytes) : Prop := forall open r,
  css_args css_rule open (l ++ r) =
  (let* t := css_args css_rule (match l with [] => open | _ => true end) r in
   Ok (match l with [] => [] | _ => brace open end ++ s ++ t)).

Lemma property_head p q props ps : Forall2 Property (p :: props) (q :: ps) -> atomic p = None.
Proof. intros F. inversion F as [|? ? ? ? P _]; subst. destruct P. reflexivity. Qed.

Lemma rules_step ns st ew es w s l s' : css_rule (Lst ns st ew es w) = Ok s -> args_done l s' ->
  args_done (Lst ns st ew es w :: l) (w ++ s ++ s').
Proof.
  intros R A open r. cbn [app Proofs_css.css_args]. rewrite R. cbn [bind].
  match goal with |- bind ?z _ = _ => change z with (css_args css_rule true (l ++ r)) end.
  rewrite (A true r). replace (match l with [] => true | _ => true end) with true by (destruct l; reflexivity).
  match goal with |- bind (bind ?z _) _ = bind ?y _ => change y with z end.
  destruct (css_args css_rule true r) as [t| | | |]; try reflexivity. cbn [bind].
  f_equal. unfold brace. destruct l; rewrite <- !app_assoc; reflexivity.
Qed.

Lemma rule_back ns s : Rule ns s -> forall st ew es w, css_rule (Lst ns st ew es w) = Ok s.
Proof.
  induction 1 as [hd a args ps A L F|hd a params rules ps s A L N F R IH|hd a more sels props ps A NL NN F NP P|
                  |ns st ew es w s l s' R IH Rs IHs] using rule_mut
    with (P0 := fun l s _ => args_done l s).
  - intros. rewrite css_rule_eq, A. apply line_in in L. rewrite L, oneline_map, (params_back _ _ F). reflexivity.
  - intros. rewrite css_rule_eq, A. apply nesting_in in L.
    destruct (line_rule (a_val a)) eqn:LR; [rewrite (line_not_nesting _ LR) in L; discriminate L|]. rewrite L.
    rewrite (args_params css_rule params rules ps N F).
    pose proof (IH false []) as E. rewrite app_nil_r in E. rewrite E.
    change (css_args css_rule (match rules with [] => false | _ => true end) []) with (@Ok bytes []). cbn [bind].
    rewrite app_nil_r. destruct rules; unfold brace; rewrite <- ?app_assoc; reflexivity.
  - intros. destruct props as [|p props]; [contradiction|]. inversion P as [|? q ? ps' P1 P2]; subst.
    rewrite (ordinary_eq hd a more sels (p :: props)); try assumption; [|exact (property_head _ _ _ _ P)].
    pose proof (props_back _ _ P []) as E. rewrite app_nil_r in E. rewrite E. cbn [Format.css_props bind].
    rewrite app_nil_r. reflexivity.
  - intros open r. cbn [app]. destruct (css_args css_rule open r); reflexivity.
  - apply rules_step; [apply IH|exact IHs].
Qed.
Lemma rules_done l s : Rules l s -> args_done l s.
Proof.
  intros R. induction l as [|n l IH] in s, R |- *; inversion R as [|ns st ew es w s0 l0 s' R0 R']; subst.
  - intros open r. cbn [app]. destruct (css_args css_rule open r); reflexivity.
  - apply rules_step; [apply rule_back, R0|apply IH, R'].
Qed.

Lemma norule_back ns q : NoRule ns q -> forall st ew es w, css_rule (Lst ns st ew es w) = q.
Proof.
  induction 1 as [|hd l A|hd a l x r ps st A L F N|hd a l x r ps st A L X F Nx N|hd a l rules ns st ew es w r ps s q A L X F R N IH|
    hd a l rules x r ps s A L X F R NR N|hd a more sels l k v st w r ps st' A NL NN F P N|hd a more sels l x r ps A NL NN F P X N|
    hd a l last A NL NN F E]; intros st1 ew1 es1 w1.
  - reflexivity.
  - rewrite css_rule_eq, A. reflexivity.
  - rewrite css_rule_eq, A. apply line_in in L. rewrite L, oneline_map.
    rewrite (mapr_stop css_param l x r ps _ (params_back _ _ F) (noparam_back _ _ N)). reflexivity.
  - rewrite css_rule_eq, A. apply nesting_in in L.
    destruct (line_rule (a_val a)) eqn:LR; [rewrite (line_not_nesting _ LR) in L; discriminate L|]. rewrite L.
    rewrite (args_params css_rule l (x :: r) ps X F), (args_noparam css_rule x r st Nx N). reflexivity.
  - rewrite css_rule_eq, A. apply nesting_in in L.
    destruct (line_rule (a_val a)) eqn:LR; [rewrite (line_not_nesting _ LR) in L; discriminate L|]. rewrite L.
    rewrite (args_params css_rule l _ ps X F). rewrite (rules_done rules s R false).
    assert (S := norule_stopped ns q N).
    assert (Z : forall o, css_args css_rule o (Lst ns st ew es w :: r) = q).
    { intros o. cbn [Proofs_css.css_args]. rewrite IH. apply stop_bind, S. }
    rewrite Z. destruct q; try destruct S; reflexivity.
  - rewrite css_rule_eq, A. apply nesting_in in L.
    destruct (line_rule (a_val a)) eqn:LR; [rewrite (line_not_nesting _ LR) in L; discriminate L|]. rewrite L.
    rewrite (args_params css_rule l _ ps X F). rewrite (rules_done rules s R false).
    destruct rules as [|n rules]; [contradiction|]. rewrite (args_late css_rule x r N). reflexivity.
  - rewrite (ordinary_eq hd a more sels); try assumption.
    + rewrite (props_back l ps P). cbn [Format.css_props]. rewrite (novalue_back _ _ N). reflexivity.
    + destruct P as [|p q l' ps' P1 P2]; [reflexivity|]. destruct P1. reflexivity.
  - rewrite (ordinary_eq hd a more sels); try assumption.
    + rewrite (props_back l ps P). destruct x; try reflexivity. exfalso. eapply N. reflexivity.
    + destruct P as [|p q l' ps' P1 P2]; [apply X; reflexivity|]. destruct P1. reflexivity.
  - rewrite css_rule_eq, A. apply line_out in NL. apply nesting_out in NN. rewrite NL, NN.
    destruct E as [l' E].
    assert (TL : length (take_atoms (hd :: l)) = length (hd :: l)).
    { clear - F. induction F as [|n m H F IH]; [reflexivity|]. cbn [take_atoms].
      destruct (atomic n); [|contradiction]. cbn [length]. rewrite IH. reflexivity. }
    unfold prop_index. rewrite TL, Nat.ltb_irrefl. rewrite E in *. rewrite app_length. cbn [length].
    replace (length l' + 1 - 1) with (length l') by lia. rewrite skipn_app, skipn_all, Nat.sub_diag. cbn [skipn app].
    apply Forall_app in F as [_ F]. inversion F; subst. destruct last; try reflexivity; contradiction.
Qed.

Lemma gen_rules l s : Rules l s -> forall r, css_gen (l ++ r) = (let* t := css_gen r in Ok (s ++ t)).
Proof.
  intros R. induction l as [|n l IH] in s, R |- *; inversion R as [|ns st ew es w s0 l0 s' R0 R']; subst; intros r.
  - cbn [app]. destruct (css_gen r); reflexivity.
  - cbn [app Format.css_gen]. rewrite (rule_back _ _ R0). cbn [bind]. rewrite (IH s' R').
    destruct (css_gen r) as [t| | | |]; try reflexivity. cbn [bind]. rewrite <- !app_assoc. reflexivity.
Qed.

Lemma sheet_back t s : Rules t s -> css_gen t = Ok s.
Proof. intros R. pose proof (gen_rules t s R []) as E. rewrite app_nil_r in E. rewrite E. cbn. rewrite app_nil_r. reflexivity. Qed.
Lemma nosheet_back t q : NoSheet t q -> css_gen t = q.
Proof.
  intros [l ns st ew es w r s q' R N|l x r s R N]; rewrite (gen_rules l s R).
  - cbn [Format.css_gen]. rewrite (norule_back _ _ N). assert (S := norule_stopped _ _ N).
    destruct q'; try destruct S; reflexivity.
  - destruct x; try reflexivity. exfalso. apply N. repeat eexists.
Qed.

Lemma sheet_iff t : Forall utf8 (flat_map values t) -> forall r,
  css_gen t = r <-> match r with Ok s => Rules t s | _ => NoSheet t r end.
Proof.
  intros D r. split.
  - intros <-. destruct (sheet_cases t D) as [[s [E S]]|[q [E S]]]; rewrite E; [exact S|].
    destruct S as [l ns st ew es w r s q R N|l x r s R N].
    + assert (S := norule_stopped _ _ N). destruct q; try destruct S; econstructor; eassumption.
    + econstructor; eassumption.
  - destruct r; [apply sheet_back|apply nosheet_back..].
Qed.

Lemma value_iff n : Forall utf8 (values n) -> forall r,
  css_value n = r <-> match r with
                      | Ok s => Value n s
                      | Err e => exists st, e = EErr ECssAttrInValue st /\ NoValue n st
                      | _ => False
                      end.
Proof.
  intros D r. split.
  - intros <-. destruct (value_cases n D) as [[s [E S]]|[st [E S]]]; rewrite E; eauto.
  - destruct r as [s|e| | |]; try contradiction; [apply value_back|]. intros [st [-> N]]. apply novalue_back, N.
Qed.
End Sheet.
