(** * Proofs about the CSS formatter *)

From Coq Require Import String List Ascii Bool Arith Lia NArith.
From Verif Require Import Text Utf8 Res Ast Debug Format Spec_grammar Spec_tree Spec_markup Spec_output
  Proofs_text Proofs_ast.
Import ListNotations.

(** ** Braces *)

Lemma braces_app : forall s d t, braces d (s ++ t) =
  match braces d s with Some d' => braces d' t | None => None end.
Proof.
  induction s as [|c s IH]; intros d t; simpl; auto.
  destruct (ch c "{"); auto. destruct (ch c "}"); auto. destruct d; auto.
Qed.
Lemma braces_free : forall s d, brace_free s -> braces d s = Some d.
Proof.
  induction s as [|c s IH]; intros d [H1 H2]; simpl; auto.
  destruct (ch c "{") eqn:E1; [apply ch_eq in E1; subst; exfalso; apply H1; left; auto|].
  destruct (ch c "}") eqn:E2; [apply ch_eq in E2; subst; exfalso; apply H2; left; auto|].
  apply IH. split; intro I; [apply H1|apply H2]; right; auto.
Qed.
Lemma braces_more : forall s d d' k, braces d s = Some d' -> braces (d + k) s = Some (d' + k).
Proof.
  induction s as [|c s IH]; intros d d' k H; simpl in *; [congruence|].
  destruct (ch c "{"); [apply (IH (S d)); auto|]. destruct (ch c "}"); auto.
  destruct d; [discriminate|]. simpl. auto.
Qed.
Lemma balanced_at : forall s d, balanced s -> braces d s = Some d.
Proof. intros s d H. apply (braces_more s 0 0 d H). Qed.
Lemma balanced_app : forall s t, balanced s -> balanced t -> balanced (s ++ t).
Proof. unfold balanced. intros s t H1 H2. rewrite braces_app, H1. exact H2. Qed.
Lemma braces_skip : forall x d y, balanced x -> braces d (x ++ y) = braces d y.
Proof. intros x d y H. rewrite braces_app. rewrite (balanced_at x d H). reflexivity. Qed.
Lemma balanced_free : forall s, brace_free s -> balanced s.
Proof. intros s H. apply braces_free; auto. Qed.
Lemma balanced_group : forall s, balanced s -> balanced (b "{" ++ s ++ b "}").
Proof.
  intros s H. unfold balanced. simpl. rewrite braces_app, (balanced_at s 1 H). reflexivity.
Qed.
Lemma balanced_nil : balanced []. Proof. reflexivity. Qed.

Lemma free_nil : brace_free []. Proof. split; intros []. Qed.
Lemma free_app : forall s t, brace_free s -> brace_free t -> brace_free (s ++ t).
Proof. intros s t [A B] [C D]. split; rewrite in_app_iff; tauto. Qed.
Lemma free_char : forall c, c <> "{"%char -> c <> "}"%char -> brace_free [c].
Proof. intros c A B. split; intros [H|[]]; congruence. Qed.
Definition freeb (s : bytes) : bool := negb (has "{" s) && negb (has "}" s).
Lemma freeb_ok : forall s, freeb s = true -> brace_free s.
Proof.
  intros s H. unfold freeb in H. apply andb_true_iff in H as [A B]. apply negb_true_iff in A, B.
  split; intro I; apply has_iff in I; congruence.
Qed.
Lemma balanced_cons : forall c s, freeb [c] = true -> balanced s -> balanced (c :: s).
Proof. intros c s F H. apply (balanced_app [c]); auto. apply balanced_free, freeb_ok; auto. Qed.
Ltac bal := repeat first [ assumption | apply balanced_cons; [reflexivity|]
  | apply balanced_app; [assumption || reflexivity|] | reflexivity ].
Lemma free_part : forall x y, brace_free (x ++ y) -> brace_free x /\ brace_free y.
Proof. intros x y [A B]. rewrite in_app_iff in A, B. repeat split; tauto. Qed.
Lemma free_rev : forall x, brace_free x -> brace_free (rev x).
Proof. intros x [A B]. split; rewrite <- in_rev; auto. Qed.
Lemma free_flat : forall l, Forall brace_free l -> brace_free (concat l).
Proof. induction 1; simpl; [apply free_nil|apply free_app; auto]. Qed.

Lemma blank_free : forall w, Forall blank_char w -> brace_free w.
Proof.
  intros w F. split; intro I; rewrite Forall_forall in F; apply F in I;
    destruct I as [I|[I|[I|I]]]; discriminate I.
Qed.

(** Cutting brace-free ends off a balanced text. *)
Lemma balanced_prefix : forall x s, brace_free x -> balanced (x ++ s) -> balanced s.
Proof. unfold balanced. intros x s F H. rewrite braces_app, braces_free in H; auto. Qed.
Lemma balanced_suffix : forall x s, brace_free x -> balanced (s ++ x) -> balanced s.
Proof.
  unfold balanced. intros x s F H. rewrite braces_app in H.
  destruct (braces 0 s) as [d|]; [|discriminate]. rewrite braces_free in H; auto.
Qed.

(** [trim] only cuts white characters off. *)
Lemma trim_with_cut : forall ws fuel s, Forall brace_free ws ->
  exists x, brace_free x /\ s = x ++ trim_with ws fuel s.
Proof.
  intros ws fuel. induction fuel as [|f IH]; intros s F.
  - exists []. split; [apply free_nil|reflexivity].
  - simpl. destruct (find (fun w => starts_with w s) ws) as [w|] eqn:E.
    + apply find_some in E as [I E]. apply starts_with_iff in E as [r ->].
      rewrite skipn_app, skipn_all, Nat.sub_diag. simpl.
      destruct (IH r F) as [x [Fx Ex]]. exists (w ++ x). split.
      * apply free_app; auto. rewrite Forall_forall in F. auto.
      * rewrite <- app_assoc. f_equal. exact Ex.
    + exists []. split; [apply free_nil|reflexivity].
Qed.
Lemma white_free : Forall brace_free white_chars.
Proof.
  apply Forall_forall. intros w I. apply freeb_ok.
  assert (forallb freeb white_chars = true) as A by (vm_compute; reflexivity).
  rewrite forallb_forall in A. auto.
Qed.
Lemma white_rev_free : Forall brace_free (map (@rev ascii) white_chars).
Proof.
  apply Forall_forall. intros w I. apply in_map_iff in I as [v [<- I]]. apply free_rev.
  pose proof white_free as F. rewrite Forall_forall in F. auto.
Qed.
Lemma balanced_trim : forall s, balanced s -> balanced (trim s).
Proof.
  intros s H. unfold trim, trim_start.
  destruct (trim_with_cut white_chars (length s) s white_free) as [x [Fx Ex]].
  rewrite Ex in H. apply balanced_prefix in H; auto.
  set (m := trim_with white_chars (length s) s) in *. clearbody m.
  unfold trim_end.
  destruct (trim_with_cut (map (@rev ascii) white_chars) (length m) (rev m) white_rev_free) as [y [Fy Ey]].
  apply (balanced_suffix (rev y)); [apply free_rev; auto|].
  rewrite <- rev_app_distr, <- Ey, rev_involutive. exact H.
Qed.

Lemma balanced_join : forall sep l, balanced sep -> Forall balanced l -> balanced (join sep l).
Proof.
  intros sep l Hs F. induction F as [|x l Hx F IH]; [reflexivity|].
  destruct l as [|y l]; [exact Hx|]. simpl join. simpl in IH.
  apply balanced_app; auto. apply balanced_app; auto.
Qed.

(** Quoted text: escapes contain balanced braces only. *)
Lemma hex_digit_free : forall n, (n < 16)%N -> brace_free [hex_digit n].
Proof.
  intros n H.
  assert (n = 0 \/ n = 1 \/ n = 2 \/ n = 3 \/ n = 4 \/ n = 5 \/ n = 6 \/ n = 7 \/ n = 8 \/ n = 9 \/
          n = 10 \/ n = 11 \/ n = 12 \/ n = 13 \/ n = 14 \/ n = 15)%N as D by lia.
  repeat destruct D as [D|D]; subst; apply freeb_ok; vm_compute; reflexivity.
Qed.
Lemma hex_free : forall n, brace_free (hex n).
Proof.
  intro n. unfold hex.
  assert (A : forall fuel n acc, brace_free acc -> brace_free (hex_aux fuel n acc)).
  { induction fuel as [|f IH]; intros m acc F; simpl; auto.
    assert (brace_free (hex_digit (m mod 16) :: acc)).
    { apply (free_app [_] acc); auto. apply hex_digit_free. apply N.mod_lt. discriminate. }
    destruct (m <? 16)%N; auto. }
  apply A, free_nil.
Qed.
Lemma unicode_balanced : forall s, balanced (unicode_escape s).
Proof.
  intro s. unfold unicode_escape.
  change (balanced (b "\u" ++ (b "{" ++ hex (code_point s) ++ b "}"))).
  apply balanced_app; [reflexivity|]. apply balanced_group, balanced_free, hex_free.
Qed.

Section Quote.
Variable printable : bytes -> bool.

Lemma debug_ascii_balanced : forall c, brace_free [c] -> balanced (debug_ascii c).
Proof.
  intros c F. unfold debug_ascii.
  repeat match goal with |- context[if ?x then _ else _] => destruct x; [reflexivity|] end.
  destruct (between 32 126 c); [apply balanced_free; auto|apply unicode_balanced].
Qed.
Lemma take_cont_app : forall s ks r, take_cont s = (ks, r) -> s = ks ++ r.
Proof.
  induction s as [|c s IH]; intros ks r H; simpl in H; [injection H as <- <-; auto|].
  destruct (is_cont c); [|injection H as <- <-; auto].
  destruct (take_cont s) as [ks' r']. injection H as <- <-. simpl. f_equal. auto.
Qed.
Lemma debug_chars_balanced : forall fuel s, brace_free s -> balanced (debug_chars printable fuel s).
Proof.
  induction fuel as [|f IH]; intros s F; [reflexivity|]. destruct s as [|c r]; [reflexivity|].
  simpl. apply (free_part [c] r) in F as [Fc Fr].
  destruct (between 0 127 c).
  - apply balanced_app; auto using debug_ascii_balanced.
  - destruct (take_cont r) as [ks r'] eqn:E. apply take_cont_app in E. subst r.
    apply free_part in Fr as [Fk Fr]. apply balanced_app; auto.
    destruct (printable (c :: ks)); [|apply unicode_balanced].
    apply balanced_free, (free_app [c]); auto.
Qed.
Lemma debug_balanced : forall s, brace_free s -> balanced (debug_str printable s).
Proof.
  intros s F. unfold debug_str. apply (balanced_app [DQ]); [reflexivity|].
  apply balanced_app; [apply debug_chars_balanced; auto|reflexivity].
Qed.

(** ** Values *)

Lemma css_apply_balanced : forall h l, balanced h -> Forall balanced l -> balanced (css_apply h l).
Proof.
  intros h l Hh Hl. unfold css_apply.
  assert (A : balanced (trim (join (if mem h css_comma_delim then b ", " else b " ") l))).
  { apply balanced_trim, balanced_join; auto. destruct (mem h css_comma_delim); reflexivity. }
  destruct (mem h css_functions).
  { bal. }
  destruct (mem h binary_operators).
  { apply balanced_app; [reflexivity|]. apply balanced_app; [|reflexivity].
    apply balanced_join; auto. bal. }
  bal.
Qed.

Notation css_value := (css_value printable).

Lemma css_value_list : forall hd tl s ew es w,
  css_value (Lst (hd :: tl) s ew es w) =
  (let* head := css_value hd in let* tail := mapr css_value tl in Ok (css_apply head tail)).
Proof.
  intros. cbn [Format.css_value]. destruct (css_value hd); auto. cbn [bind].
  match goal with |- bind (?g tl) _ = _ => assert (E : forall l, g l = mapr css_value l) end.
  { induction l as [|x l IH]; [reflexivity|]. cbn [mapr]. rewrite <- IH. reflexivity. }
  rewrite E. reflexivity.
Qed.

Lemma mapr_ok : forall {A B} (f : A -> res B) l r, mapr f l = Ok r -> Forall2 (fun x y => f x = Ok y) l r.
Proof.
  induction l as [|x l IH]; intros r H; simpl in H.
  - injection H as <-. constructor.
  - destruct (f x) as [y| | | |] eqn:E; try discriminate H. simpl in H.
    destruct (mapr f l) as [ys| | | |]; try discriminate H. injection H as <-.
    constructor; auto.
Qed.

Lemma css_value_balanced : forall n s, css_value n = Ok s ->
  Forall brace_free (values n) -> balanced s.
Proof.
  induction n as [a|a|a|a|ns st ew es w IH|k v st w _] using node_ind'; intros s H F; simpl in F.
  1-3: simpl in H; injection H as <-; inversion F; subst;
    destruct (has_white (a_val a)); [apply debug_balanced|apply balanced_free]; auto.
  - simpl in H. injection H as <-. inversion F; subst. apply balanced_free; auto.
  - destruct ns as [|hd tl]; [injection H as <-; reflexivity|].
    rewrite css_value_list in H. destruct (css_value hd) as [h| | | |] eqn:Eh; try discriminate H.
    cbn [bind] in H. destruct (mapr css_value tl) as [l| | | |] eqn:El; try discriminate H.
    cbn [bind] in H. injection H as <-.
    inversion IH as [|? ? IHh IHt]; subst. cbn [flat_map] in F. apply Forall_app in F as [Fh Ft].
    apply css_apply_balanced; auto.
    apply mapr_ok in El. clear - IHt Ft El. revert l El.
    induction tl as [|x tl IHl]; intros l El; inversion El; subst; constructor.
    + inversion IHt; subst. cbn [flat_map] in Ft. apply Forall_app in Ft as [Fx _]. eauto.
    + inversion IHt; subst. cbn [flat_map] in Ft. apply Forall_app in Ft as [_ Fl]. auto.
  - discriminate H.
Qed.

(** Never anything but a value or an error. *)
Definition returns {A} (r : res A) : Prop :=
  match r with Ok _ | Err _ => True | _ => False end.
Lemma returns_bind : forall A B (r : res A) (k : A -> res B),
  returns r -> (forall x, r = Ok x -> returns (k x)) -> returns (bind r k).
Proof. intros A B [] k H1 H2; simpl in *; auto. Qed.
Lemma returns_mapr : forall A B (f : A -> res B) l, Forall (fun x => returns (f x)) l -> returns (mapr f l).
Proof.
  induction 1 as [|x l H F IH]; simpl; auto.
  apply returns_bind; auto. intros y _. apply returns_bind; auto. intros; exact I.
Qed.

Lemma css_value_returns : forall n, returns (css_value n).
Proof.
  induction n as [a|a|a|a|ns st ew es w IH|k v st w _] using node_ind'; try exact I.
  destruct ns as [|hd tl]; [exact I|]. rewrite css_value_list. inversion IH; subst.
  apply returns_bind; auto. intros h _.
  apply returns_bind; [apply returns_mapr; auto|]. intros; exact I.
Qed.

(** ** Rules *)

Notation css_props := (css_props printable).
Notation css_rule := (css_rule printable).
Notation css_gen := (css_gen printable).
Notation css_oneline := (css_oneline printable).

(** The classification of at-rules in the specification agrees with the
    tables of the code. *)
Lemma nesting_eq : forall s, (mem s css_special_selectors && negb (mem s css_non_nested)) = nesting_rule s || line_rule s.
Proof.
  intro s.
  assert (D : mem s css_special_selectors = true \/ mem s css_special_selectors = false) by (destruct (mem s css_special_selectors); auto).
  destruct D as [D|D].
  - unfold mem in D. apply existsb_exists in D as [x [I E]]. apply beq_eq in E. subst x.
    simpl in I. repeat (destruct I as [<-|I]; [vm_compute; reflexivity|]). destruct I.
  - rewrite D. simpl. symmetry. apply orb_false_iff. unfold mem in D.
    assert (A : forall x, In x css_special_selectors -> beq s x = false).
    { intros x I. destruct (beq s x) eqn:E; auto.
      assert (existsb (beq s) css_special_selectors = true) by (apply existsb_exists; eauto). congruence. }
    unfold nesting_rule, line_rule. cbn [map existsb].
    rewrite !A by (simpl; auto 20). auto.
Qed.
Lemma line_eq : forall s, mem s css_oneline_rules = line_rule s.
Proof. reflexivity. Qed.
Lemma line_not_nesting : forall s, line_rule s = true -> nesting_rule s = false.
Proof.
  intros s H. unfold line_rule in H. apply existsb_exists in H as [x [I E]]. apply beq_eq in E. subst x.
  simpl in I. repeat (destruct I as [<-|I]; [vm_compute; reflexivity|]). destruct I.
Qed.

Definition css_args (rule : node -> res bytes) :=
  fix go (rules : bool) (l : list node) : res bytes :=
    match l with
    | [] => Ok []
    | arg :: l' =>
        match arg with
        | Attr k v s _ =>
            if rules then Err (EErr ECssNotRule s) else
            let* y := css_value v in
            let* rest := go rules l' in
            Ok (b "(" ++ k ++ b ": " ++ y ++ b ") " ++ rest)
        | Lst _ _ _ _ ws =>
            let* y := rule arg in
            let* rest := go true l' in
            Ok ((if rules then [] else b "{" ++ [LF]) ++ ws ++ y ++ rest)
        | _ =>
            if rules then Err (EErr ECssNotRule (node_site arg)) else
            let* y := css_value arg in
            let* rest := go rules l' in
            Ok (y ++ b " " ++ rest)
        end
    end.

Lemma css_rule_eq : forall hd args s ew es w,
  css_rule (Lst (hd :: args) s ew es w) =
  match atomic hd with
  | None => Panic PUnwrap
  | Some a =>
      if line_rule (a_val a) then
        let* body := css_oneline args in
        Ok (a_val a ++ b " " ++ body ++ b ";" ++ [LF])
      else if nesting_rule (a_val a) then
        let* body := css_args css_rule false args in
        Ok (a_val a ++ b " " ++ body ++ b "}")
      else
        let* body := css_props (skipn (prop_index (hd :: args) - 1) (hd :: args)) in
        Ok (selector_text (take_atoms (hd :: args)) ++ b "{" ++ [LF] ++ body ++ b "}")
  end.
Proof.
  intros. cbn [Format.css_rule]. destruct (atomic hd) as [a|]; auto.
  rewrite nesting_eq, line_eq.
  destruct (line_rule (a_val a)) eqn:EL.
  - rewrite orb_true_r. reflexivity.
  - rewrite orb_false_r. destruct (nesting_rule (a_val a)); reflexivity.
Qed.

Lemma css_props_returns : forall l, returns (css_props l).
Proof.
  induction l as [|n l IH]; [exact I|]. destruct n; try exact I.
  cbn [Format.css_props]. apply returns_bind; [apply css_value_returns|]. intros y _.
  apply returns_bind; auto. intros; exact I.
Qed.
Lemma css_oneline_returns : forall l, returns (css_oneline l).
Proof.
  induction l as [|n l IH]; [exact I|]. cbn [Format.css_oneline].
  apply returns_bind.
  - destruct n; (apply returns_bind; [apply css_value_returns|]; intros; exact I).
  - intros y _. apply returns_bind; auto. intros; exact I.
Qed.

Definition is_listb (n : node) : bool := is_list n.

Lemma css_args_returns : forall rule l fl,
  Forall (fun m => is_list m = true -> returns (rule m)) l -> returns (css_args rule fl l).
Proof.
  intros rule l fl F. revert fl. induction F as [|m l H F IH]; intros fl; [exact I|].
  assert (V : forall n, returns (let* y := css_value n in let* rest := css_args rule fl l in Ok (y ++ b " " ++ rest))).
  { intros n. apply returns_bind; [apply css_value_returns|]. intros y _.
    apply returns_bind; auto. intros; exact I. }
  destruct m; cbn [css_args]; try (destruct fl; [exact I|apply V]).
  - apply returns_bind; [apply H; reflexivity|]. intros y _. apply returns_bind; [apply IH|]. intros; exact I.
  - destruct fl; [exact I|]. apply returns_bind; [apply css_value_returns|]. intros y _.
    apply returns_bind; [apply IH|]. intros; exact I.
Qed.

Lemma css_rule_returns : forall n, is_list n = true -> ~ BadRule n -> returns (css_rule n).
Proof.
  induction n as [a|a|a|a|ns st ew es w IH|k v st w _] using node_ind'; intros L N; try discriminate L.
  destruct ns as [|hd args]; [exfalso; apply N; constructor|].
  rewrite css_rule_eq. destruct (atomic hd) as [a|] eqn:Ea; [|exfalso; apply N; constructor; auto].
  destruct (line_rule (a_val a)).
  { apply returns_bind; [apply css_oneline_returns|]. intros; exact I. }
  destruct (nesting_rule (a_val a)) eqn:En.
  - apply returns_bind; [|intros; exact I]. apply css_args_returns.
    inversion IH as [|? ? _ IHa]; subst. rewrite Forall_forall in *.
    intros m Im Lm. apply IHa; auto. intro Bm. apply N. eapply bad_nested; eauto.
  - apply returns_bind; [apply css_props_returns|]. intros; exact I.
Qed.

Lemma css_gen_returns : forall t, Forall (fun n => is_list n = true -> ~ BadRule n) t -> returns (css_gen t).
Proof.
  induction 1 as [|n t H F IH]; [exact I|]. destruct n; try exact I.
  cbn [Format.css_gen]. apply returns_bind; [apply css_rule_returns; [reflexivity|apply H; reflexivity]|].
  intros x _. apply returns_bind; auto. intros; exact I.
Qed.

(** Shape of an ordinary rule. *)
Lemma take_atoms_split : forall l, exists sels rest, l = sels ++ rest /\
  Forall2 (fun n a => atomic n = Some a) sels (take_atoms l) /\
  match rest with [] => True | n :: _ => atomic n = None end.
Proof.
  induction l as [|n l (sels & rest & E & F & R)].
  - exists [], []. repeat split; constructor.
  - simpl. destruct (atomic n) as [a|] eqn:Ea.
    + exists (n :: sels), rest. split; [simpl; congruence|]. split; auto.
    + exists [], (n :: l). split; auto.
Qed.

Lemma css_props_ok : forall l s, css_props l = Ok s ->
  exists props, Forall2 (fun n kv => exists v st w, n = Attr (fst kv) v st w /\ css_value v = Ok (snd kv)) l props /\
    s = flat_map (fun kv => b "  " ++ fst kv ++ b ": " ++ snd kv ++ b ";" ++ [LF]) props.
Proof.
  induction l as [|n l IH]; intros s H.
  - injection H as <-. exists []. split; [constructor|reflexivity].
  - destruct n as [ | | | | |k v st w]; try discriminate H. cbn [Format.css_props] in H.
    destruct (css_value v) as [y| | | |] eqn:Ev; try discriminate H. cbn [bind] in H.
    destruct (css_props l) as [rest| | | |]; try discriminate H. cbn [bind] in H. injection H as <-.
    destruct (IH rest eq_refl) as [props [F ->]].
    exists ((k, y) :: props). split.
    + constructor; auto. exists v, st, w. auto.
    + cbn [flat_map fst snd]. rewrite <- !app_assoc. reflexivity.
Qed.

Lemma forall2_length : forall A B (R : A -> B -> Prop) l m, Forall2 R l m -> length l = length m.
Proof. induction 1; simpl; auto. Qed.

Lemma css_rule_ordinary : forall nodes st ew es w s,
  css_rule (Lst nodes st ew es w) = Ok s ->
  (forall hd rest a, nodes = hd :: rest -> atomic hd = Some a ->
     nesting_rule (a_val a) = false /\ line_rule (a_val a) = false) ->
  exists sel_nodes sels prop_nodes props,
    nodes = sel_nodes ++ prop_nodes /\ sels <> [] /\ props <> [] /\
    Forall2 (fun n a => atomic n = Some a) sel_nodes sels /\
    Forall2 (fun n kv => exists v st w, n = Attr (fst kv) v st w /\ css_value v = Ok (snd kv))
      prop_nodes props /\
    s = flat_map (fun a => a_val a ++ b " ") sels ++ b "{" ++ [LF] ++
        flat_map (fun kv => b "  " ++ fst kv ++ b ": " ++ snd kv ++ b ";" ++ [LF]) props ++ b "}".
Proof.
  intros nodes st ew es w s H O.
  destruct nodes as [|hd args]; [discriminate H|].
  rewrite css_rule_eq in H. destruct (atomic hd) as [a|] eqn:Ea; [|discriminate H].
  destruct (O hd args a eq_refl Ea) as [O1 O2]. rewrite O1, O2 in H.
  destruct (css_props _) as [body| | | |] eqn:Ep; try discriminate H. cbn [bind] in H. injection H as <-.
  destruct (take_atoms_split (hd :: args)) as (sels & rest & E & F & R).
  pose proof (forall2_length _ _ _ _ _ F) as Len.
  unfold prop_index in Ep. rewrite <- Len in Ep.
  assert (LE : length (hd :: args) = length sels + length rest) by (rewrite E, app_length; reflexivity).
  rewrite LE in Ep.
  destruct rest as [|p rest].
  - (* no property: the last selector is visited again *)
    exfalso. simpl length in Ep at 3. rewrite Nat.add_0_r, Nat.ltb_irrefl in Ep.
    destruct (exists_last (l := sels)) as [init [last El]].
    { intro Q. subst sels. rewrite E in LE. simpl in E. discriminate E. }
    rewrite E, app_nil_r, El in Ep. rewrite app_length in Ep. simpl in Ep.
    replace (length init + 1 - 1) with (length init) in Ep by lia.
    rewrite skipn_app, skipn_all, Nat.sub_diag in Ep. simpl in Ep.
    assert (exists x, atomic last = Some x) as [x Hx].
    { rewrite El in F. apply Forall2_app_inv_l in F as (l1 & l2 & _ & F2 & _).
      inversion F2; subst. eauto. }
    destruct last; simpl in Hx; discriminate.
  - assert (Q : (length sels <? length sels + length (p :: rest)) = true) by (apply Nat.ltb_lt; simpl; lia).
    rewrite Q in Ep. simpl Nat.sub in Ep. rewrite Nat.sub_0_r in Ep.
    rewrite E, skipn_app, skipn_all, Nat.sub_diag in Ep. simpl app in Ep. cbn [skipn] in Ep.
    apply css_props_ok in Ep as (props & Fp & ->).
    exists sels, (take_atoms (hd :: args)), (p :: rest), props.
    split; [exact E|]. split; [simpl; rewrite Ea; discriminate|].
    split; [inversion Fp; discriminate|]. auto.
Qed.

(** A rule of atoms only is rejected. *)
Lemma css_rule_no_property : forall init last st ew es w,
  Forall (fun n => is_atomic n = true) (init ++ [last]) ->
  (forall hd rest a, init ++ [last] = hd :: rest -> atomic hd = Some a ->
     nesting_rule (a_val a) = false /\ line_rule (a_val a) = false) ->
  css_rule (Lst (init ++ [last]) st ew es w) = Err (EErr ECssNotProperty (node_site last)).
Proof.
  intros init last st ew es w F O.
  assert (TA : length (take_atoms (init ++ [last])) = length init + 1).
  { clear - F. induction init as [|n init IH]; simpl in *; inversion F as [|? ? H1 H2]; subst.
    - unfold is_atomic in H1. destruct (atomic last); [reflexivity|discriminate].
    - unfold is_atomic in H1. destruct (atomic n); [|discriminate]. simpl. auto. }
  destruct (init ++ [last]) as [|hd args] eqn:E; [destruct init; discriminate|].
  inversion F as [|? ? H1 H2]; subst. unfold is_atomic in H1.
  rewrite css_rule_eq. destruct (atomic hd) as [a|] eqn:Ea; [|discriminate].
  destruct (O hd args a eq_refl Ea) as [-> ->].
  unfold prop_index. rewrite TA.
  assert (LE : length (hd :: args) = length init + 1) by (rewrite <- E, app_length; reflexivity).
  rewrite LE, Nat.ltb_irrefl. replace (length init + 1 - 1) with (length init) by lia.
  rewrite <- E, skipn_app, skipn_all, Nat.sub_diag. simpl.
  assert (is_atomic last = true).
  { rewrite <- E in F. apply Forall_app in F as [_ F]. inversion F; auto. }
  destruct last; try discriminate; reflexivity.
Qed.

(** ** Brace balance *)

Lemma css_props_balanced : forall l s, css_props l = Ok s ->
  Forall brace_free (flat_map values l) -> balanced s.
Proof.
  induction l as [|n l IH]; intros s H F.
  - injection H as <-. reflexivity.
  - destruct n as [ | | | | |k v st w]; try discriminate H. cbn [Format.css_props] in H.
    destruct (css_value v) as [y| | | |] eqn:Ev; try discriminate H. cbn [bind] in H.
    destruct (css_props l) as [rest| | | |]; try discriminate H. cbn [bind] in H. injection H as <-.
    cbn [flat_map values] in F. apply Forall_app in F as [F1 F2]. inversion F1 as [|? ? Fk Fv]; subst.
    pose proof (css_value_balanced _ _ Ev Fv). pose proof (balanced_free _ Fk).
    bal; auto.
Qed.
Lemma css_oneline_balanced : forall l s, css_oneline l = Ok s ->
  Forall brace_free (flat_map values l) -> balanced s.
Proof.
  induction l as [|n l IH]; intros s H F.
  - injection H as <-. reflexivity.
  - cbn [Format.css_oneline] in H. cbn [flat_map] in F. apply Forall_app in F as [F1 F2].
    match type of H with bind ?x _ = _ => destruct x as [y| | | |] eqn:Ey; try discriminate H end.
    cbn [bind] in H. destruct (css_oneline l) as [rest| | | |]; try discriminate H.
    cbn [bind] in H. injection H as <-. apply balanced_app; auto.
    assert (P : forall m s, (let* y := css_value m in Ok (y ++ b " ")) = Ok s ->
                Forall brace_free (values m) -> balanced s).
    { intros m s Q Fm. destruct (css_value m) as [z| | | |] eqn:Ez; try discriminate Q. injection Q as <-.
      apply balanced_app; [eapply css_value_balanced; eauto|reflexivity]. }
    destruct n as [ | | | | |k v st w]; try (eapply P; eassumption).
    destruct (css_value v) as [z| | | |] eqn:Ev; try discriminate Ey. cbn [bind] in Ey. injection Ey as <-.
    inversion F1 as [|? ? Fk Fv]; subst.
    pose proof (css_value_balanced _ _ Ev Fv). pose proof (balanced_free _ Fk).
    bal.
Qed.

(** The body of a nesting at-rule: flat until the first rule, then one
    level deeper. *)
Lemma css_args_braces : forall rule l fl s, css_args rule fl l = Ok s ->
  Forall (fun m => is_list m = true -> forall y, rule m = Ok y -> balanced y) l ->
  Forall brace_free (flat_map values l) ->
  Forall (Forall blank_char) (flat_map ws_fields l) ->
  (fl = true -> braces 1 s = Some 1) /\
  (fl = false -> existsb is_list l = true -> braces 0 s = Some 1) /\
  (existsb is_list l = false -> balanced s).
Proof.
  intros rule l. induction l as [|m l IH]; intros fl s H R F B.
  - injection H as <-. repeat split; auto. intros _ Q. discriminate Q.
  - inversion R as [|? ? Rm Rl]; subst. cbn [flat_map] in F, B.
    apply Forall_app in F as [Fm Fl]. apply Forall_app in B as [Bm Bl].
    assert (V : forall n pre post rest fl', css_args rule fl' l = Ok rest -> fl' = false ->
      balanced pre -> balanced post -> Forall brace_free (values n) ->
      forall y, css_value n = Ok y ->
      (existsb is_list l = true -> braces 0 (pre ++ y ++ post ++ rest) = Some 1) /\
      (existsb is_list l = false -> balanced (pre ++ y ++ post ++ rest))).
    { intros n pre post rest fl' Hr -> Bp Bq Fn y Ey.
      destruct (IH _ _ Hr Rl Fl Bl) as (_ & I2 & I3).
      pose proof (css_value_balanced _ _ Ey Fn) as By. unfold balanced at 1.
      rewrite !braces_skip by assumption. auto. }
    assert (W : forall (n : node) (fl' : bool), (if fl' then Err (EErr ECssNotRule (node_site n)) else
            let* y := css_value n in
            let* rest := css_args rule fl' l in
            Ok (y ++ b " " ++ rest)) = Ok s -> Forall brace_free (values n) ->
      fl' = false /\ (existsb is_list l = true -> braces 0 s = Some 1) /\ (existsb is_list l = false -> balanced s)).
    { intros n fl' Hn Fn. destruct fl'; [discriminate Hn|].
      destruct (css_value n) as [y| | | |] eqn:Ey; try discriminate Hn. cbn [bind] in Hn.
      destruct (css_args rule false l) as [rest| | | |] eqn:Er; try discriminate Hn.
      injection Hn as <-. split; auto.
      apply (V n [] (b " ") rest false Er eq_refl); auto; reflexivity. }
    destruct m as [a|a|a|a|ns st ew es w|k v st w]; cbn [existsb is_list list_of is_some orb].
    1-4: cbn [css_args] in H; apply W in H as (-> & H1 & H2); auto;
      repeat split; auto; discriminate.
    + cbn [css_args] in H.
      destruct (rule (Lst ns st ew es w)) as [y| | | |] eqn:Ey; try discriminate H. cbn [bind] in H.
      destruct (css_args rule true l) as [rest| | | |] eqn:Er; try discriminate H.
      injection H as <-. destruct (IH _ _ Er Rl Fl Bl) as (I1 & _ & _).
      assert (Bw : brace_free w) by (apply blank_free; inversion Bm; auto).
      assert (By := Rm eq_refl y eq_refl).
      repeat split.
      * intros ->. simpl. pose proof (balanced_free _ Bw). rewrite !braces_skip by assumption. auto.
      * intros -> _. simpl. pose proof (balanced_free _ Bw). rewrite !braces_skip by assumption. auto.
      * discriminate.
    + cbn [css_args] in H. destruct fl; [discriminate H|].
      destruct (css_value v) as [y| | | |] eqn:Ey; try discriminate H. cbn [bind] in H.
      destruct (css_args rule false l) as [rest| | | |] eqn:Er; try discriminate H.
      injection H as <-. cbn [values] in Fm. inversion Fm as [|? ? Fk Fv]; subst.
      destruct (V v (b "(" ++ k ++ b ": ") (b ") ") rest false Er eq_refl) with (y := y) as [V1 V2]; auto.
      { apply balanced_app; [reflexivity|]. apply balanced_app; [apply balanced_free; auto|reflexivity]. }
      { reflexivity. }
      rewrite <- !app_assoc in V1, V2.
      repeat split; auto; discriminate.
Qed.

Lemma css_rule_balanced : forall n s, css_rule n = Ok s ->
  Forall brace_free (values n) -> Forall (Forall blank_char) (ws_fields n) ->
  rules_nested n = true -> balanced s.
Proof.
  induction n as [a|a|a|a|ns st ew es w IH|k v st w _] using node_ind'; intros s H F B N;
    try discriminate H.
  destruct ns as [|hd args]; [discriminate H|].
  rewrite css_rule_eq in H. cbn [rules_nested] in N.
  destruct (atomic hd) as [a|] eqn:Ea; [|discriminate H].
  cbn [values flat_map] in F. apply Forall_app in F as [Fh Fa].
  cbn [ws_fields flat_map] in B. inversion B as [|? ? Bw B1]; subst. inversion B1 as [|? ? Be B2]; subst.
  apply Forall_app in B2 as [Bh Ba].
  assert (Sa : balanced (a_val a)).
  { apply balanced_free. destruct hd; try discriminate Ea; injection Ea as ->; inversion Fh; auto. }
  destruct (line_rule (a_val a)).
  { destruct (css_oneline args) as [body| | | |] eqn:Eb; try discriminate H. injection H as <-.
    pose proof (css_oneline_balanced _ _ Eb Fa).
    bal. }
  destruct (nesting_rule (a_val a)).
  - apply andb_true_iff in N as [N1 N2].
    destruct (css_args _ _ args) as [body| | | |] eqn:Eb; try discriminate H. injection H as <-.
    inversion IH as [|? ? _ IHa]; subst.
    destruct (css_args_braces _ _ _ _ Eb) as (_ & I2 & _); auto.
    { rewrite Forall_forall in *. intros m Im Lm y Ey. apply (IHa m Im y Ey).
      - apply Forall_forall. intros x Ix. apply Fa. apply in_flat_map; eauto.
      - apply Forall_forall. intros x Ix. apply Ba. apply in_flat_map; eauto.
      - rewrite forallb_forall in N2. auto. }
    apply balanced_app; [assumption|]. apply balanced_cons; [reflexivity|].
    unfold balanced. rewrite braces_app, I2; auto.
  - destruct (css_props _) as [body| | | |] eqn:Eb; try discriminate H. injection H as <-.
    apply css_props_balanced in Eb.
    + apply balanced_app.
      * apply balanced_free. unfold selector_text.
        destruct (take_atoms_split (hd :: args)) as (sels & rest & E & FS & _).
        assert (FV : Forall brace_free (flat_map values (hd :: args))) by (apply Forall_app; auto).
        rewrite E, flat_map_app in FV. apply Forall_app in FV as [FV _].
        change (brace_free (flat_map (fun a => a_val a ++ b " ") (take_atoms (hd :: args)))).
        revert FS. generalize (take_atoms (hd :: args)) as at_. intros at_ FS. clear - FS FV.
        induction FS as [|n x l m H1 F2 IHF]; [apply free_nil|]. cbn [flat_map] in *.
        apply Forall_app in FV as [V1 V2]. apply free_app; auto. apply free_app; [|apply freeb_ok; reflexivity].
        destruct n; try discriminate H1; injection H1 as ->; inversion V1; auto.
      * change (b "{" ++ [LF] ++ body ++ b "}") with (b "{" ++ ([LF] ++ body) ++ b "}").
        apply balanced_group. apply (balanced_app [LF]); [reflexivity|exact Eb].
    + assert (FV : Forall brace_free (flat_map values (hd :: args))) by (apply Forall_app; auto).
      generalize (prop_index (hd :: args) - 1) as i. intro i.
      rewrite <- (firstn_skipn i (hd :: args)) in FV. rewrite flat_map_app in FV.
      apply Forall_app in FV as [_ FV]. exact FV.
Qed.

Lemma css_gen_balanced : forall t s, css_gen t = Ok s ->
  Forall brace_free (flat_map values t) -> Forall (Forall blank_char) (flat_map ws_fields t) ->
  forallb rules_nested t = true -> balanced s.
Proof.
  induction t as [|n t IH]; intros s H F B N.
  - injection H as <-. reflexivity.
  - cbn [flat_map forallb] in *. apply Forall_app in F as [F1 F2]. apply Forall_app in B as [B1 B2].
    apply andb_true_iff in N as [N1 N2].
    destruct n as [ | | | |ns st ew es w|]; try discriminate H. cbn [Format.css_gen] in H.
    destruct (css_rule (Lst ns st ew es w)) as [x| | | |] eqn:Ex; try discriminate H. cbn [bind] in H.
    destruct (css_gen t) as [rest| | | |]; try discriminate H. injection H as <-.
    apply balanced_app; [apply balanced_free, blank_free; inversion B1; auto|].
    apply balanced_app; [eapply css_rule_balanced; eauto|]. auto.
Qed.
End Quote.
