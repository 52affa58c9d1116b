(** * Proofs about document wrappers, formatter failures and [pre] *)

From Coq Require Import String List Ascii Bool Arith Lia.
From Verif Require Import Text Utf8 Res Lexer Ast Parser Debug Format Spec_grammar Spec_tree Spec_tokens
  Spec_markup Spec_output Proofs_text Proofs_lexer Proofs_token Proofs_ast Proofs_parser Proofs_pos
  Proofs_fields Proofs_markup Proofs_css.
Import ListNotations.

(** ** Searching for list heads *)

Section Search.
Variable tag : bytes.
Hypothesis tag_lower : to_lower tag = tag.
Notation snode := (search_node SListHead tag true).
Notation stree_ := (search_tree SListHead tag true).

Definition first_found (f : node -> option node) :=
  fix go (ns : list node) : option node :=
    match ns with
    | [] => None
    | m :: ns' => match f m with Some x => Some x | None => go ns' end
    end.
Lemma first_found_iff : forall f ns, is_some (first_found f ns) = true <->
  exists x, In x ns /\ is_some (f x) = true.
Proof.
  induction ns as [|m ns IH]; simpl.
  - split; [discriminate|intros [x [[] _]]].
  - destruct (f m) eqn:E.
    + split; auto. intros _. exists m. rewrite E. auto.
    + rewrite IH. split.
      * intros [x [I H]]. eauto.
      * intros [x [[->|I] H]]; [rewrite E in H; discriminate|eauto].
Qed.

Lemma search_node_iff : forall n level, is_some (snode level n) = true <-> ListWithin tag level n.
Proof.
  induction n as [a|a|a|a|ns st ew es w IH|k v st w IH] using node_ind'; intros level.
  1-4: destruct level; simpl; split; try discriminate; intro H; inversion H.
  - destruct level as [|level]; [simpl; split; [discriminate|intro H; inversion H]|].
    assert (REST : is_some (match level with 0 => None | S _ => first_found (snode level) ns end) = true <->
                   exists x, In x ns /\ ListWithin tag level x).
    { destruct level as [|level].
      - split; [discriminate|]. intros [x [_ H]]. inversion H.
      - rewrite first_found_iff. split; intros [x [I H]]; exists x; (split; [exact I|]);
          rewrite Forall_forall in IH; apply (IH x I); auto. }
    assert (Q : snode (S level) (Lst ns st ew es w) =
      let rest := match level with 0 => None | S _ => first_found (snode level) ns end in
      match ns with
      | hd :: _ =>
          match atomic hd with
          | Some a => if beq (to_lower (a_val a)) (to_lower tag) then Some (Lst ns st ew es w) else rest
          | None => rest
          end
      | [] => rest
      end) by reflexivity.
    rewrite Q. clear Q. cbv zeta.
    assert (HERE : forall hd rest, ns = hd :: rest ->
      (atomic hd = None \/ exists a, atomic hd = Some a /\ to_lower (a_val a) <> tag) ->
      (ListWithin tag (S level) (Lst ns st ew es w) <-> exists x, In x ns /\ ListWithin tag level x)).
    { intros hd rest E N. split.
      - intro H. inversion H; subst; [|eauto].
        destruct N as [N|[a' [N1 N2]]]; congruence.
      - intros [x [I L]]. eapply lw_list; eauto. }
    destruct ns as [|hd rest].
    + rewrite REST. split; intros H; [destruct H as [x [[] _]]|].
      inversion H; subst. match goal with I : In _ [] |- _ => destruct I end.
    + destruct (atomic hd) as [a|] eqn:Ea.
      * rewrite tag_lower. destruct (beq (to_lower (a_val a)) tag) eqn:Eb.
        -- apply beq_eq in Eb. split; auto. intros _. eapply lw_here; eauto.
        -- rewrite REST, (HERE hd rest); [tauto|reflexivity|]. right. exists a. split; auto.
           apply beq_neq; auto.
      * rewrite REST, (HERE hd rest); [tauto|reflexivity|]. auto.
  - destruct level as [|level]; [simpl; split; [discriminate|intro H; inversion H]|].
    assert (Q : snode (S level) (Attr k v st w) = snode level v) by reflexivity.
    rewrite Q, IH. split; intro H; [constructor; auto|inversion H; auto].
Qed.

Lemma search_tree_iff : forall t level, is_some (stree_ level t) = true <->
  exists n, In n t /\ ListWithin tag level n.
Proof.
  intros t level. destruct level as [|level].
  - split; [destruct t; discriminate|]. intros [n [_ H]]. inversion H.
  - assert (Q : stree_ (S level) t = first_found (snode (S level)) t).
    { induction t; [reflexivity|]. cbn [search_tree first_found]. rewrite IHt. reflexivity. }
    rewrite Q, first_found_iff. split; intros [n [I H]]; exists n; split; auto; apply search_node_iff; auto.
Qed.
End Search.

(** ** Document wrappers *)

Lemma pop_last : forall s, pop_newline (s ++ [LF]) = s.
Proof.
  intro s. unfold pop_newline. rewrite rev_app_distr. simpl. apply rev_involutive.
Qed.

Section Doc.
Variable printable : bytes -> bool.
Variable sources : nat -> bytes.
Notation html_gen := (html_gen printable sources).
Notation html_document := (html_document printable sources).

Definition present (t : tree) (tag : string) (d : nat) : Prop :=
  exists n, In n t /\ ListWithin (b tag) d n.

Lemma html_document_ok : forall t, t <> [] ->
  exists doctype html head body : bool,
    (doctype = true <-> present t "!doctype" 1) /\
    (html = true <-> present t "html" 1) /\
    (head = true <-> present t "head" 2) /\
    (body = true <-> present t "body" 2) /\
    html_document t =
      (let* c := html_gen t in
       Ok (if doctype then c
           else if html then b "<!DOCTYPE html>" ++ [LF] ++ c
           else b "<!DOCTYPE html>" ++ [LF] ++ b "<html>" ++ [LF] ++
                (if head then [] else b "<head></head>" ++ [LF]) ++
                (if body then [] else b "<body>" ++ [LF]) ++
                c ++ [LF] ++
                (if body then [] else b "</body>" ++ [LF]) ++ b "</html>")).
Proof.
  intros t NE.
  exists (is_some (search_tree SListHead (b "!doctype") true 1 t)),
         (is_some (search_tree SListHead (b "html") true 1 t)),
         (is_some (search_tree SListHead (b "head") true 2 t)),
         (is_some (search_tree SListHead (b "body") true 2 t)).
  repeat (split; [apply search_tree_iff; reflexivity|]).
  unfold html_document. destruct t as [|n t]; [congruence|]. set (T := n :: t). clearbody T.
  destruct (html_gen T) as [c| | | |]; try reflexivity. cbn [bind].
  destruct (is_some (search_tree SListHead (b "!doctype") true 1 T)).
  { change (Ok (pop_newline (c ++ [LF])) = Ok c). rewrite pop_last. reflexivity. }
  destruct (is_some (search_tree SListHead (b "html") true 1 T)).
  { f_equal. rewrite <- (pop_last (b "<!DOCTYPE html>" ++ [LF] ++ c)). f_equal. }
  f_equal.
  set (h := if is_some (search_tree SListHead (b "head") true 2 T) then [] else b "<head></head>" ++ [LF]).
  match goal with |- _ = ?r => rewrite <- (pop_last r) end. f_equal.
  destruct (is_some (search_tree SListHead (b "body") true 2 T));
    rewrite <- !app_assoc; reflexivity.
Qed.
End Doc.

(** ** Failures of the XML formatter *)

Lemma xml_attribute_returns : forall k v st w, returns (xml_attribute (Attr k v st w)).
Proof. intros. simpl. destruct (atomic v); exact I. Qed.
Lemma xml_attributes_returns : forall l, returns (xml_attributes l).
Proof.
  induction l as [|n l IH]; [exact I|]. destruct n; try exact I. cbn [xml_attributes].
  apply returns_bind; [apply xml_attribute_returns|]. intros x _.
  apply returns_bind; auto. intros; exact I.
Qed.
Lemma xml_declaration_returns : forall l, returns (xml_declaration l).
Proof.
  induction l as [|n l IH]; [exact I|]. cbn [xml_declaration]. destruct (symbolic n).
  - apply returns_bind; auto. intros; exact I.
  - destruct n; try exact I. apply returns_bind; [apply xml_attribute_returns|]. intros x _.
    apply returns_bind; auto. intros; exact I.
Qed.

(** A result that is a value, an error, or a panic for which [P] holds. *)
Definition panics_only {A} (P : Prop) (r : res A) : Prop :=
  match r with Ok _ | Err _ => True | Panic _ => P | _ => False end.
Lemma po_returns : forall A P (r : res A), returns r -> panics_only P r.
Proof. intros A P [] H; simpl in *; tauto. Qed.
Lemma po_bind : forall A B P (r : res A) (k : A -> res B),
  panics_only P r -> (forall x, r = Ok x -> panics_only P (k x)) -> panics_only P (bind r k).
Proof. intros A B P [] k H1 H2; simpl in *; auto. Qed.
Lemma po_impl : forall A (P Q : Prop) (r : res A), (P -> Q) -> panics_only P r -> panics_only Q r.
Proof. intros A P Q [] H1 H2; simpl in *; auto. Qed.

Lemma xml_node_panics : forall n w,
  panics_only (exists m, Inside m n /\ headed_by [] m) (xml_node_ws w n).
Proof.
  induction n as [a|a|a|a|ns st ew es lw IH|k v st lw _] using node_ind'; intros w; try exact I.
  destruct ns as [|[a| | | | |] rest]; try exact I.
  cbn [xml_node_ws]. destruct (a_val a) as [|c tag] eqn:Et.
  { exists (Lst (Sym a :: rest) st ew es lw). split; [constructor|].
    exists a, rest, st, ew, es, lw. auto. }
  destruct (ch c "!" || ch c "?").
  { apply po_bind; [apply po_returns, xml_declaration_returns|]. intros; exact I. }
  apply po_bind; [apply po_returns, xml_attributes_returns|]. intros attrs _.
  apply po_bind; [|intros; exact I].
  match goal with |- panics_only _ (?g true rest) => enough (A : forall fr,
    panics_only (exists m, (exists x, In x rest /\ Inside m x) /\ headed_by [] m) (g fr rest)) end.
  { eapply po_impl; [|apply (A true)]. intros [m [[x [I1 I2]] H]]. exists m. split; auto.
    eapply in_list; [right; exact I1|exact I2]. }
  inversion IH as [|? ? _ IHr]; subst. clear - IHr.
  induction rest as [|m rest IHrest]; intro fr; [exact I|].
  inversion IHr as [|? ? Hm Hr]; subst. specialize (IHrest Hr).
  assert (M : forall r : res bytes, panics_only (exists m, (exists x, In x rest /\ Inside m x) /\ headed_by [] m) r ->
              panics_only (exists m0, (exists x, In x (m :: rest) /\ Inside m0 x) /\ headed_by [] m0) r).
  { intros r. apply po_impl. intros [m0 [[x [I1 I2]] H]]. exists m0. split; auto. exists x. split; auto. right; auto. }
  destruct (fr && is_attribute m); [apply M; apply IHrest|]. cbv zeta.
  apply po_bind.
  - eapply po_impl; [|apply Hm]. intros [m0 [I2 H]]. exists m0. split; auto. exists m. split; auto. left; auto.
  - intros x _. apply po_bind; [apply M; apply IHrest|]. intros; exact I.
Qed.

Lemma concat_res_panics : forall (f : node -> res bytes) (B : node -> Prop) t,
  (forall n, panics_only (exists m, Inside m n /\ B m) (f n)) ->
  panics_only (exists n m, In n t /\ Inside m n /\ B m) (concat_res (map f t)).
Proof.
  intros f B t H. induction t as [|n t IH]; [exact I|]. cbn [map concat_res].
  apply po_bind.
  - eapply po_impl; [|apply H]. intros [m [I1 I2]]. exists n, m. split; [left; auto|auto].
  - intros x _. apply po_bind; [|intros; exact I].
    eapply po_impl; [|exact IH]. intros (n' & m & I0 & I1 & I2). exists n', m. split; [right; auto|auto].
Qed.

Lemma xml_gen_panics : forall t,
  panics_only (exists n m, In n t /\ Inside m n /\ headed_by [] m) (xml_gen t).
Proof. intro t. apply concat_res_panics. intro n. apply xml_node_panics. Qed.

(** *** Exactly which trees succeed *)

Lemma atom_value_iff : forall n, atom_value n = is_some (atomic n).
Proof. intros []; reflexivity. Qed.

Definition succeeds {A} (r : res A) : bool := match r with Ok _ => true | _ => false end.
Lemma succeeds_bind : forall A B (r : res A) (k : A -> res B) y,
  (forall x, r = Ok x -> succeeds (k x) = y) -> succeeds (bind r k) = succeeds r && y.
Proof. intros A B [] k y H; simpl; auto. Qed.

Lemma xml_attribute_succeeds : forall k v st w, succeeds (xml_attribute (Attr k v st w)) = atom_value v.
Proof. intros. simpl. rewrite atom_value_iff. destruct (atomic v); reflexivity. Qed.
Lemma xml_declaration_succeeds : forall l, succeeds (xml_declaration l) = forallb decl_able l.
Proof.
  induction l as [|n l IH]; [reflexivity|]. cbn [xml_declaration forallb].
  destruct (symbolic n) eqn:E.
  - rewrite (succeeds_bind _ _ _ _ true) by reflexivity. rewrite IH, andb_true_r.
    destruct n; try discriminate E; reflexivity.
  - destruct n; try reflexivity; try discriminate E.
    rewrite (succeeds_bind _ _ _ _ (forallb decl_able l)).
    + rewrite xml_attribute_succeeds. reflexivity.
    + intros x _. rewrite (succeeds_bind _ _ _ _ true) by reflexivity. rewrite IH, andb_true_r. reflexivity.
Qed.

Fixpoint front_attrs (l : list node) : bool :=
  match l with
  | Attr _ v _ _ :: l' => atom_value v && front_attrs l'
  | _ => true
  end.
Lemma xml_attributes_succeeds : forall l, succeeds (xml_attributes l) = front_attrs l.
Proof.
  induction l as [|n l IH]; [reflexivity|]. destruct n; try reflexivity. cbn [xml_attributes front_attrs].
  rewrite (succeeds_bind _ _ _ _ (front_attrs l)).
  - rewrite xml_attribute_succeeds. reflexivity.
  - intros x _. rewrite (succeeds_bind _ _ _ _ true) by reflexivity. rewrite IH, andb_true_r. reflexivity.
Qed.

Lemma xml_node_succeeds : forall n w, succeeds (xml_node_ws w n) = xml_able n.
Proof.
  induction n as [a|a|a|a|ns st ew es lw IH|k v st lw _] using node_ind'; intros w; try reflexivity.
  destruct ns as [|[a| | | | |] rest]; try reflexivity.
  cbn [xml_node_ws xml_able]. destruct (a_val a) as [|c tag] eqn:Et; [reflexivity|].
  change (starts_decl (c :: tag)) with (ch c "!" || ch c "?").
  destruct (ch c "!" || ch c "?").
  { rewrite (succeeds_bind _ _ _ _ true) by reflexivity.
    rewrite xml_declaration_succeeds, andb_true_r. reflexivity. }
  match goal with |- context[bind (?g true rest) _] => match goal with |- _ = ?h true rest =>
    assert (A : (front_attrs rest && succeeds (g true rest)) = h true rest /\
                succeeds (g false rest) = h false rest);
    [|rewrite (succeeds_bind _ _ _ _ (succeeds (g true rest)));
      [rewrite xml_attributes_succeeds; apply A
      |intros x _; rewrite (succeeds_bind _ _ _ _ true) by reflexivity; rewrite andb_true_r; reflexivity]]
  end end.
  inversion IH as [|? ? _ IHr]; subst. clear - IHr.
  induction rest as [|m rest IHrest]; [split; reflexivity|].
  inversion IHr as [|? ? Hm Hr]; subst. destruct (IHrest Hr) as [I1 I2]. clear IHrest.
  assert (S : forall fr, is_attribute m = false -> succeeds
    (let w := leading_ws m in
     let* x := xml_node_ws (if fr && negb (has LF w) then [] else w) m in
     let* xs := (fix go (front : bool) (l : tree) {struct l} : res bytes :=
             match l with
             | [] => Ok []
             | m :: l' =>
                 if front && is_attribute m then go true l' else
                 let w := leading_ws m in
                 let* x := xml_node_ws (if front && negb (has LF w) then [] else w) m in
                 let* xs := go false l' in Ok (x ++ xs)
             end) false rest in Ok (x ++ xs)) =
    xml_able m && (fix go (front : bool) (l : list node) : bool :=
                  match l with
                  | [] => true
                  | m :: l' =>
                      match m with
                      | Attr _ v _ _ => front && atom_value v && go true l'
                      | _ => xml_able m && go false l'
                      end
                  end) false rest).
  { intros fr _. cbv zeta. rewrite <- I2. rewrite <- (Hm (if fr && negb (has LF (leading_ws m)) then [] else leading_ws m)).
    apply succeeds_bind. intros x _. rewrite (succeeds_bind _ _ _ _ true) by reflexivity. apply andb_true_r. }
  destruct m as [a|a|a|a|ns st ew es lw|k v st lw].
  1-5: split; [cbn [front_attrs]; rewrite andb_true_l; apply (S true eq_refl)|apply (S false eq_refl)].
  split.
  - cbn [front_attrs andb is_attribute attribute is_some]. rewrite <- andb_assoc. f_equal. exact I1.
  - reflexivity.
Qed.

Lemma xml_gen_succeeds : forall t, succeeds (xml_gen t) = forallb xml_able t.
Proof.
  intro t. unfold xml_gen. induction t as [|n t IH]; [reflexivity|]. cbn [map concat_res forallb].
  rewrite (succeeds_bind _ _ _ _ (forallb xml_able t)).
  - unfold xml_node. rewrite xml_node_succeeds. reflexivity.
  - intros x _. rewrite (succeeds_bind _ _ _ _ true) by reflexivity. rewrite IH, andb_true_r. reflexivity.
Qed.

(** ** Failures of the HTML formatter *)

(** A [style] element with a rule that makes the CSS formatter panic. *)
Definition bad_style (m : node) : Prop :=
  exists a rest s ew es w r, m = Lst (Sym a :: rest) s ew es w /\
    to_lower (a_val a) = b "style" /\ In r rest /\ is_list r = true /\ BadRule r.
(** A [pre] element whose source text cannot be cut out. *)
Definition bad_pre (sources : nat -> bytes) (m : node) : Prop :=
  exists a rest s ew es w k p, m = Lst (Sym a :: rest) s ew es w /\
    to_lower (a_val a) = b "pre" /\ In k rest /\ raw_text sources (Some k) ew es = Panic p.
Section HtmlPanics.
Variable printable : bytes -> bool.
Variable sources : nat -> bytes.
Definition html_bad (m : node) : Prop := headed_by [] m \/ bad_pre sources m \/ bad_style m.
Notation html_node_ws := (html_node_ws printable sources).

Lemma html_declaration_returns : forall l, returns (html_declaration l).
Proof.
  induction l as [|n l IH]; [exact I|]. cbn [html_declaration]. destruct (symbolic n); [|exact I].
  apply returns_bind; auto. intros; exact I.
Qed.
Lemma html_attributes_returns : forall l, returns (html_attributes l).
Proof.
  induction l as [|n l IH]; [exact I|]. destruct n; try exact I. cbn [html_attributes].
  destruct (atomic n); [|exact I]. apply returns_bind; auto. intros; exact I.
Qed.

Lemma drop_in : forall l x, In x (drop_attributes l) -> In x l.
Proof. induction l as [|n l IH]; intros x H; [destruct H|]. destruct n; auto. right. auto. Qed.

Lemma bad_set : forall w n, BadRule (set_ws w n) -> BadRule n.
Proof.
  intros w n H. destruct n; try (inversion H; fail). simpl in H. inversion H; subst.
  - constructor.
  - constructor; auto.
  - eapply bad_nested; eauto.
Qed.

Lemma css_gen_panics : forall t, panics_only (exists r, In r t /\ is_list r = true /\ BadRule r)
  (css_gen printable t).
Proof.
  assert (R : forall n, is_list n = true -> panics_only (BadRule n) (css_rule printable n)).
  { induction n as [a|a|a|a|ns st ew es w IH|k v st w _] using node_ind'; intro L; try discriminate L.
    destruct ns as [|hd args]; [constructor|]. rewrite css_rule_eq.
    destruct (atomic hd) as [a|] eqn:Ea; [|constructor; auto].
    destruct (line_rule (a_val a)).
    { apply po_bind; [apply po_returns, css_oneline_returns|]. intros; exact I. }
    destruct (nesting_rule (a_val a)) eqn:En.
    - apply po_bind; [|intros; exact I].
      inversion IH as [|? ? _ IHa]; subst.
      apply (po_impl _ (exists m, In m args /\ BadRule m)).
      { intros [m [Im Bm]]. eapply bad_nested; eauto. }
      generalize false as fl. clear - IHa. induction IHa as [|m l Hm F IH]; intro fl; [exact I|].
      assert (M : forall r : res bytes, panics_only (exists m, In m l /\ BadRule m) r ->
                  panics_only (exists m0, In m0 (m :: l) /\ BadRule m0) r).
      { intros r. apply po_impl. intros [m0 [I1 I2]]. exists m0. split; auto. right; auto. }
      assert (V : forall n (k : bytes -> bytes -> bytes) fl', panics_only (exists m0, In m0 (m :: l) /\ BadRule m0)
         (let* y := css_value printable n in let* rest := css_args printable (css_rule printable) fl' l in Ok (k y rest))).
      { intros n k fl'. apply po_bind; [apply po_returns, css_value_returns|]. intros y _.
        apply po_bind; [apply M, IH|]. intros; exact I. }
      destruct m; cbn [css_args]; try (destruct fl; [exact I|]).
      1-4: apply (V _ (fun y rest => y ++ b " " ++ rest)).
      + apply po_bind; [|intros y _; apply po_bind; [apply M, IH|intros; exact I]].
        eapply po_impl; [|apply Hm; reflexivity]. intro Bm. eexists. split; [left; reflexivity|exact Bm].
      + apply (V _ (fun y rest => b "(" ++ keyword ++ b ": " ++ y ++ b ") " ++ rest)).
    - apply po_bind; [apply po_returns, css_props_returns|]. intros; exact I. }
  induction t as [|n t IH]; [exact I|].
  destruct n as [ | | | |ns st ew es w|]; try exact I. cbn [Format.css_gen].
  apply po_bind.
  - eapply po_impl; [|apply R; reflexivity]. intro B. eexists. split; [left; reflexivity|]. auto.
  - intros x _. apply po_bind; [|intros; exact I].
    eapply po_impl; [|exact IH]. intros (r & I1 & I2). exists r. split; [right; auto|auto].
Qed.

Lemma inside_set : forall m w n, Inside m (set_ws w n) -> (exists n', n' = set_ws w n /\ m = n') \/ Inside m n.
Proof.
  intros m w n H. destruct n; simpl in *; inversion H; subst; eauto.
  - right. eapply in_list; eauto.
  - right. apply in_attr; auto.
Qed.

Lemma html_node_panics : forall n w,
  panics_only (exists m, Inside m n /\ html_bad m) (html_node_ws w n).
Proof.
  induction n as [a|a|a|a|ns st ew es lw IH|k v st lw _] using node_ind'; intros w; try exact I.
  destruct ns as [|[a| | | | |] rest]; try exact I.
  set (N := Lst (Sym a :: rest) st ew es lw).
  assert (SELF : html_bad N -> exists m, Inside m N /\ html_bad m) by (intro; exists N; split; [constructor|auto]).
  unfold N at 2. cbn [Format.html_node_ws]. destruct (to_lower (a_val a)) as [|c tag] eqn:Et.
  { apply SELF. left. exists a, rest, st, ew, es, lw. split; auto.
    destruct (a_val a); [auto|discriminate Et]. }
  destruct (ch c "!").
  { apply po_bind; [apply po_returns, html_declaration_returns|]. intros; exact I. }
  apply po_bind; [apply po_returns, html_attributes_returns|]. intros attrs _.
  destruct (mem (c :: tag) void_elements); [destruct (drop_attributes rest); exact I|].
  apply po_bind; [|intros; exact I].
  destruct (beq (c :: tag) (b "pre")) eqn:E1.
  { apply beq_eq in E1.
    destruct (drop_attributes rest) as [|k l] eqn:Ed; [exact I|].
    assert (IK : In k rest) by (apply drop_in; rewrite Ed; left; auto).
    destruct (raw_text sources (Some k) ew es) eqn:Er; try exact I.
    - apply SELF. right. left. exists a, rest, st, ew, es, lw, k, p. rewrite Et. auto.
    - revert Er. unfold raw_text, str_slice. destruct (negb _); [discriminate|]. destruct (_ <? _); [discriminate|].
      match goal with |- context[if ?x then _ else _] => destruct x end; discriminate.
    - revert Er. unfold raw_text, str_slice. destruct (negb _); [discriminate|]. destruct (_ <? _); [discriminate|].
      match goal with |- context[if ?x then _ else _] => destruct x end; discriminate. }
  destruct (beq (c :: tag) (b "textarea") || beq (c :: tag) (b "title")); [exact I|].
  destruct (beq (c :: tag) (b "style")) eqn:E2.
  { apply beq_eq in E2.
    apply (po_impl _ (exists r, In r (adjust_first (drop_attributes rest)) /\ is_list r = true /\ BadRule r)).
    - intros (r & I1 & L & B). apply SELF. right. right.
      assert (exists r', In r' (drop_attributes rest) /\ is_list r' = true /\ BadRule r') as (r' & I2 & L2 & B2).
      { destruct (drop_attributes rest) as [|k l]; [destruct I1|]. simpl in I1.
        destruct I1 as [<-|I1]; [|exists r; split; [right; auto|auto]].
        exists k. split; [left; auto|]. destruct (has LF (leading_ws k)); auto.
        split; [destruct k; auto|]. eapply bad_set; eauto. }
      exists a, rest, st, ew, es, lw, r'. rewrite Et. repeat split; auto. apply drop_in; auto.
    - assert (G : panics_only (exists r, In r (adjust_first (drop_attributes rest)) /\ is_list r = true /\ BadRule r)
         (let* css := css_gen printable (adjust_first (drop_attributes rest)) in Ok (LF :: css))).
      { apply po_bind; [apply css_gen_panics|]. intros; exact I. }
      destruct (drop_attributes rest) as [|k l]; [exact G|]. destruct k; try exact G.
      destruct l; exact I. }
  destruct (beq (c :: tag) (b "script")); [exact I|].
  destruct (beq (c :: tag) (b "math") || beq (c :: tag) (b "svg")).
  { rewrite xml_gen_adjust.
    assert (X : forall k w', In k rest -> panics_only (exists m, Inside m N /\ html_bad m) (xml_node_ws w' k)).
    { intros k w' Ik. eapply po_impl; [|apply xml_node_panics]. intros [m [I1 H]]. exists m. split; [|left; auto].
      eapply in_list; [right; exact Ik|exact I1]. }
    assert (Dr : forall x, In x (drop_attributes rest) -> In x rest) by (apply drop_in).
    destruct (drop_attributes rest) as [|k l]; [exact I|].
    apply po_bind; [apply X, Dr; left; auto|]. intros x _. apply po_bind; [|intros; exact I].
    assert (Dl : forall x, In x l -> In x rest) by (intros; apply Dr; right; auto). clear - X Dl.
    induction l as [|y l IHl]; [exact I|]. cbn [map concat_res].
    apply po_bind; [apply X, Dl; left; auto|]. intros z _. apply po_bind; [|intros; exact I].
    apply IHl. intros; apply Dl; right; auto. }
  match goal with |- panics_only _ (?g true rest) => enough (A : forall fr,
    panics_only (exists m, (exists x, In x rest /\ Inside m x) /\ html_bad m) (g fr rest)) end.
  { eapply po_impl; [|apply (A true)]. intros [m [[x [I1 I2]] H]]. exists m. split; auto.
    eapply in_list; [right; exact I1|exact I2]. }
  inversion IH as [|? ? _ IHr]; subst. clear - IHr.
  induction rest as [|m rest IHrest]; intro fr; [exact I|].
  inversion IHr as [|? ? Hm Hr]; subst. specialize (IHrest Hr).
  assert (M : forall r : res bytes, panics_only (exists m, (exists x, In x rest /\ Inside m x) /\ html_bad m) r ->
              panics_only (exists m0, (exists x, In x (m :: rest) /\ Inside m0 x) /\ html_bad m0) r).
  { intros r. apply po_impl. intros [m0 [[x [I1 I2]] H]]. exists m0. split; auto. exists x. split; auto. right; auto. }
  destruct (fr && is_attribute m); [apply M; apply IHrest|]. cbv zeta.
  apply po_bind.
  - eapply po_impl; [|apply Hm]. intros [m0 [I2 H]]. exists m0. split; auto. exists m. split; auto. left; auto.
  - intros x _. apply po_bind; [apply M; apply IHrest|]. intros; exact I.
Qed.

Lemma html_gen_panics : forall t,
  panics_only (exists n m, In n t /\ Inside m n /\ html_bad m) (html_gen printable sources t).
Proof. intro t. apply concat_res_panics. intro n. apply html_node_panics. Qed.
End HtmlPanics.

(** ** Attributes read literally *)

Lemma up_to_quote_free : forall v r, ~ In DQ v -> up_to_quote (v ++ DQ :: r) = Some (v, r).
Proof.
  induction v as [|c v IH]; intros r N; [reflexivity|].
  simpl. destruct (Ascii.eqb c DQ) eqn:E; [apply Ascii.eqb_eq in E; exfalso; apply N; left; auto|].
  rewrite IH; auto. intro H. apply N. right. auto.
Qed.
Lemma up_to_quote_value : forall s v r, up_to_quote s = Some (v, r) -> ~ In DQ v.
Proof.
  induction s as [|c s IH]; intros v r H; [discriminate|]. simpl in H.
  destruct (Ascii.eqb c DQ) eqn:E; [injection H as <- <-; auto|].
  destruct (up_to_quote s) as [[v' r']|]; [|discriminate]. injection H as <- <-.
  intros [->|I]; [discriminate E|]. eapply IH; eauto.
Qed.
Lemma up_to_quote_iff : forall v r, up_to_quote (v ++ DQ :: r) = Some (v, r) <-> ~ In DQ v.
Proof. split; [apply up_to_quote_value|apply up_to_quote_free]. Qed.

(** ** Whole documents as content *)

Lemma ok_inj : forall A (x y : A), Ok x = Ok y -> x = y.
Proof. congruence. Qed.

Lemma html_wrap_content : forall c items, HtmlContent c items -> forall head body : bool,
  HtmlContent
    (b "<!DOCTYPE html>" ++ [LF] ++ b "<html>" ++ [LF] ++
       (if head then [] else b "<head></head>" ++ [LF]) ++
       (if body then [] else b "<body>" ++ [LF]) ++
       c ++ [LF] ++
       (if body then [] else b "</body>" ++ [LF]) ++ b "</html>")
    [ Decl (b "!DOCTYPE html"); Char LF;
      Elem (b "html") []
        (Char LF :: (if head then [] else [Elem (b "head") [] []; Char LF]) ++
         (if body then items ++ [Char LF]
          else [Elem (b "body") [] (Char LF :: items ++ [Char LF]); Char LF])) ].
Proof.
  intros c items H head body.
  assert (NL : HtmlContent [LF] [Char LF]) by (apply co_char; [discriminate|discriminate|constructor]).
  assert (D : HtmlContent (b "<!DOCTYPE html>") [Decl (b "!DOCTYPE html")]).
  { apply (content_decl to_lower html_void "!" (b "DOCTYPE html")); [auto|].
    simpl. intuition discriminate. }
  assert (EL : forall n inner its, is_name n = true -> to_lower n = n -> html_void n = false -> HtmlContent inner its ->
     HtmlContent (b "<" ++ n ++ b ">" ++ inner ++ b "</" ++ n ++ b ">") [Elem n [] its]).
  { intros n inner its N1 N2 N3 HC. rewrite <- N2 at 3.
    apply (content_elem to_lower html_void n n [] []); auto; [rewrite N2; auto|constructor]. }
  assert (BODY : HtmlContent ((if body then [] else b "<body>" ++ [LF]) ++ c ++ [LF] ++ (if body then [] else b "</body>" ++ [LF]))
    (if body then items ++ [Char LF] else [Elem (b "body") [] (Char LF :: items ++ [Char LF]); Char LF])).
  { destruct body.
    - rewrite app_nil_l. apply content_app; auto.
    - pose proof (EL (b "body") ([LF] ++ c ++ [LF]) (Char LF :: items ++ [Char LF])
        eq_refl eq_refl eq_refl (content_app _ _ _ _ NL _ _ (content_app _ _ _ _ H _ _ NL))) as B.
      pose proof (content_app _ _ _ _ B _ _ NL) as B2.
      replace ((b "<body>" ++ [LF]) ++ c ++ [LF] ++ b "</body>" ++ [LF])
        with ((b "<" ++ b "body" ++ b ">" ++ ([LF] ++ c ++ [LF]) ++ b "</" ++ b "body" ++ b ">") ++ [LF]); [exact B2|].
      rewrite <- !app_assoc. reflexivity. }
  assert (HEAD : HtmlContent (if head then [] else b "<head></head>" ++ [LF])
     (if head then [] else [Elem (b "head") [] []; Char LF])).
  { destruct head; [constructor|].
    exact (content_app _ _ _ _ (EL (b "head") [] [] eq_refl eq_refl eq_refl (co_nil _ _)) _ _ NL). }
  pose proof (EL (b "html") _ _ eq_refl eq_refl eq_refl
     (content_app _ _ _ _ NL _ _ (content_app _ _ _ _ HEAD _ _ BODY))) as R.
  pose proof (content_app _ _ _ _ D _ _ (content_app _ _ _ _ NL _ _ R)) as R2.
  match type of R2 with Content _ _ ?x _ => match goal with |- HtmlContent ?y _ => replace y with x end end; [exact R2|].
  destruct head, body; rewrite <- !app_assoc; reflexivity.
Qed.
