(** * Proofs about %yaml and %toml *)

From Coq Require Import String List Ascii Bool Arith ZArith Lia.
From Verif Require Import Text Res Ast Env Scope Numbers Data Spec_bind Spec_builtin Spec_data Proofs_text
  Proofs_bind Proofs_get Proofs_keep.
Import ListNotations.

Section Ind.
Variable P : data -> Prop.
Hypothesis HL : forall k v, P (Leaf k v).
Hypothesis HT : forall l, Forall (fun x => P (snd x)) l -> P (Table l).
Hypothesis HA : forall l, Forall P l -> P (Array l).
Fixpoint data_ind' (d : data) : P d :=
  match d with
  | Leaf k v => HL k v
  | Table l => HT l ((fix go (l : list (bytes * data)) : Forall (fun x => P (snd x)) l :=
      match l with
      | [] => @List.Forall_nil _ _
      | x :: l' => @List.Forall_cons _ (fun x => P (snd x)) x l' (data_ind' (snd x)) (go l')
      end) l)
  | Array l => HA l ((fix go (l : list data) : Forall P l :=
      match l with
      | [] => @List.Forall_nil _ _
      | x :: l' => @List.Forall_cons _ P x l' (data_ind' x) (go l')
      end) l)
  end.
End Ind.

Fixpoint parts_from (i : nat) (l : list data) : list (list bytes * data) :=
  match l with
  | [] => []
  | x :: l' => inside (show_nat i) x (parts x) ++ parts_from (S i) l'
  end.
Lemma parts_array l : parts (Array l) = parts_from 0 l.
Proof. reflexivity. Qed.

Lemma join_snoc sep p n : p <> [] -> join sep (p ++ [n]) = join sep p ++ sep ++ n.
Proof.
  induction p as [|x p IH]; [congruence|]. intros _. destruct p as [|y p]; [reflexivity|].
  cbn [app join] in *. rewrite IH by discriminate. rewrite <- !app_assoc. reflexivity.
Qed.
Lemma qualified_join sep prefix name : qualified sep prefix name = join sep (prefix ++ [name]).
Proof. destruct prefix as [|x p]; [reflexivity|]. rewrite join_snoc by discriminate. reflexivity. Qed.

(** Parts with the path [prefix] in front. *)
Definition under (prefix : list bytes) (ps : list (list bytes * data)) : list (list bytes * data) :=
  map (fun '(p, y) => (prefix ++ p, y)) ps.
Lemma under_app p x y : under p (x ++ y) = under p x ++ under p y.
Proof. apply map_app. Qed.
Lemma under_inside p k x ps : under p (inside k x ps) = under (p ++ [k]) ps ++ [(p ++ [k], x)].
Proof.
  unfold inside. rewrite under_app. unfold under. rewrite map_map. cbn. f_equal.
  apply map_ext. intros [q y]. rewrite <- app_assoc. reflexivity.
Qed.
Lemma under_nil ps : under [] ps = ps.
Proof. unfold under. rewrite <- map_id. apply map_ext. intros [q y]. reflexivity. Qed.

Section Yaml.
Variable sep : bytes.
Variable st : site.
Notation entry := (defined_as sep st).

Definition next (m : mode) (i : nat) : option bytes := match m with Map => None | Seq => Some (show_nat i) end.
Definition item (m : mode) (name w : bytes) (d : data) : node :=
  match m with
  | Map => Attr name (data_node st (b " ") d) st w
  | Seq => data_node st w d
  end.

Lemma set_ws_data w w' d : set_ws w (data_node st w' d) = data_node st w d.
Proof. destruct d as [[]| |]; reflexivity. Qed.

Definition gap (i : nat) : bytes := match i with 0 => [] | _ => b " " end.
Lemma gap_first ns : unless_first ns = gap (length ns).
Proof. destruct ns; reflexivity. Qed.

(** Items from the [i]th on. *)
Fixpoint items_of {A} (f : bytes -> A -> node) (i : nat) (l : list A) : list node :=
  match l with [] => [] | x :: l' => f (gap i) x :: items_of f (S i) l' end.
Lemma items_spaces {A} (f : bytes -> A -> node) l : items_of f 0 l = spaces f l.
Proof.
  destruct l as [|x l]; [reflexivity|]. cbn [items_of spaces gap]. f_equal.
  assert (K : forall i, items_of f (S i) l = map (f (b " ")) l).
  { induction l as [|y l IH]; intros i; [reflexivity|]. cbn. f_equal. apply IH. }
  apply K.
Qed.
Lemma items_length {A} (f : bytes -> A -> node) l : forall i, length (items_of f i l) = length l.
Proof. induction l as [|x l IH]; intros i; [reflexivity|]. cbn. rewrite IH. reflexivity. Qed.

Lemma table_events l : events (Table l) = YMapStart :: flat_map (fun '(k, x) => YScalar k :: events x) l ++ [YMapEnd].
Proof. reflexivity. Qed.

Lemma events_app es1 es2 k defs k1 defs1 : y_events sep st es1 k defs = Ok (k1, defs1) ->
  y_events sep st (es1 ++ es2) k defs = y_events sep st es2 k1 defs1.
Proof.
  revert k defs. induction es1 as [|e es1 IH]; intros k defs H; cbn [y_events app] in *.
  - inversion H. reflexivity.
  - destruct (y_event sep st e k defs) as [[k2 defs2]| | | |]; cbn [bind] in *; try discriminate.
    apply IH, H.
Qed.

(** A value with a name. *)
Definition reads_named (d : data) : Prop := forall k defs name m,
  y_defining k = Some name -> y_mode k = Some m ->
  exists l, Forall2 entry (under (y_prefix k) (inside name d (parts d))) l /\
    y_events sep st (events d) k defs =
    Ok (Sink (next m (S (length (y_nodes k))))
          (y_nodes k ++ [item m name (gap (length (y_nodes k))) d])
          (y_parent k) (y_prefix k) (Some m) (y_modes k), assign l defs).

Lemma one_entry prefix name w d : Forall2 entry [(prefix ++ [name], d)]
  [(qualified sep prefix name, [data_node st w d])].
Proof. constructor; [|constructor]. split; [apply qualified_join|eauto]. Qed.

(** The entries of a table. *)
Lemma reads_table l : Forall (fun x => reads_named (snd x)) l -> forall k defs,
  y_defining k = None -> y_mode k = Some Map ->
  exists ds, Forall2 entry (under (y_prefix k) (parts (Table l))) ds /\
    y_events sep st (flat_map (fun '(k, x) => YScalar k :: events x) l) k defs =
    Ok (Sink None (y_nodes k ++ items_of (fun w '(k, x) => Attr k (data_node st (b " ") x) st w) (length (y_nodes k)) l)
          (y_parent k) (y_prefix k) (Some Map) (y_modes k), assign ds defs).
Proof.
  induction 1 as [|[key x] l H _ IH]; intros k defs D M.
  - exists []. split; [constructor|]. cbn. rewrite app_nil_r. destruct k; cbn in *. subst. reflexivity.
  - cbn [flat_map app y_events]. unfold y_event at 1. rewrite D, M. cbn [bind].
    destruct (H (Sink (Some key) (y_nodes k) (y_parent k) (y_prefix k) (Some Map) (y_modes k)) defs key Map eq_refl eq_refl)
      as [l1 [F1 E1]]. cbn [y_nodes y_parent y_prefix y_modes] in *.
    destruct (IH (Sink None (y_nodes k ++ [item Map key (gap (length (y_nodes k))) x])
       (y_parent k) (y_prefix k) (Some Map) (y_modes k)) (assign l1 defs) eq_refl eq_refl)
      as [l2 [F2 E2]]. cbn [y_nodes y_parent y_prefix y_modes] in *.
    exists (l1 ++ l2). split.
    + cbn [parts flat_map] in *. rewrite under_app. apply Forall2_app; assumption.
    + cbn [snd] in E1. rewrite (events_app _ _ _ _ _ _ E1). cbn [next]. rewrite E2, assign_app.
      rewrite app_length. cbn [length items_of item]. rewrite Nat.add_1_r, <- app_assoc. reflexivity.
Qed.

(** The elements of an array. *)
Lemma reads_array l : Forall reads_named l -> forall k defs,
  y_defining k = Some (show_nat (length (y_nodes k))) -> y_mode k = Some Seq ->
  exists ds, Forall2 entry (under (y_prefix k) (parts_from (length (y_nodes k)) l)) ds /\
    y_events sep st (flat_map events l) k defs =
    Ok (Sink (Some (show_nat (length (y_nodes k) + length l)))
          (y_nodes k ++ items_of (fun w x => data_node st w x) (length (y_nodes k)) l)
          (y_parent k) (y_prefix k) (Some Seq) (y_modes k), assign ds defs).
Proof.
  induction 1 as [|x l H _ IH]; intros k defs D M.
  - exists []. split; [constructor|]. cbn. rewrite app_nil_r, Nat.add_0_r. destruct k; cbn in *. subst. reflexivity.
  - cbn [flat_map]. destruct (H k defs _ Seq D M) as [l1 [F1 E1]].
    destruct (IH (Sink (next Seq (S (length (y_nodes k))))
       (y_nodes k ++ [item Seq (show_nat (length (y_nodes k))) (gap (length (y_nodes k))) x])
       (y_parent k) (y_prefix k) (Some Seq) (y_modes k)) (assign l1 defs)) as [l2 [F2 E2]].
    { cbn [y_defining y_nodes next]. rewrite app_length. cbn [length]. rewrite Nat.add_1_r. reflexivity. }
    { reflexivity. }
    cbn [y_nodes y_parent y_prefix y_modes next item] in *. rewrite app_length in *. cbn [length] in *.
    rewrite Nat.add_1_r in *.
    exists (l1 ++ l2). split.
    + cbn [parts_from]. rewrite under_app. apply Forall2_app; assumption.
    + rewrite (events_app _ _ _ _ _ _ E1). rewrite E2, assign_app. cbn [items_of].
      rewrite <- app_assoc. cbn [app]. replace (S (length (y_nodes k)) + length l) with (length (y_nodes k) + S (length l)) by lia.
      reflexivity.
Qed.

Lemma pop_snoc p (name : bytes) : pop_prefix (p ++ [name]) = (Some name, p).
Proof. unfold pop_prefix. rewrite rev_app_distr. cbn. rewrite rev_involutive. reflexivity. Qed.

(** The end of a collection with a name. *)
Lemma end_named k name m m0 modes parent nodes defs d :
  y_modes k = m :: modes -> y_parent k = nodes :: parent -> y_mode k = Some m0 ->
  forall p, y_prefix k = p ++ [name] ->
  rlist st (y_nodes k) (gap (length nodes)) = data_node st (gap (length nodes)) d ->
  y_end sep st k defs =
  Ok (Sink (next m (S (length nodes))) (nodes ++ [item m name (gap (length nodes)) d])
        parent p (Some m) modes,
      assign [(qualified sep p name, [data_node st (gap (length nodes)) d])] defs).
Proof.
  intros M P M0 p PR Q. unfold y_end. rewrite M, P, PR, pop_snoc, gap_first, Q, Nat.add_1_r.
  destruct m; cbn [next item]; [|reflexivity].
  rewrite set_ws_data. destruct d as [[]| |]; reflexivity.
Qed.

Lemma all_named d : texts_only d = true -> reads_named d.
Proof.
  induction d as [k v|l IH|l IH] using data_ind'; intros T; unfold reads_named; intros k0 defs name m D M.
  - destruct k; try discriminate. cbn [events y_events]. unfold y_event. rewrite D, M.
    exists [(qualified sep (y_prefix k0) name, [data_node st (b " ") (Leaf LText v)])]. split.
    + rewrite under_inside. cbn [parts under map app]. apply one_entry.
    + destruct m; cbn [bind next item data_node]; rewrite ?gap_first, ?Nat.add_1_r; reflexivity.
  - assert (R : Forall (fun x => reads_named (snd x)) l).
    { cbn [texts_only] in T. rewrite forallb_forall in T. rewrite Forall_forall in *. intros [key x] I.
      apply (IH _ I). exact (T _ I). }
    rewrite table_events. change (YMapStart :: ?r) with ([YMapStart] ++ r).
    destruct (reads_table l R (y_start Map k0) defs eq_refl eq_refl) as [ds [F Q]].
    unfold y_start in F, Q. rewrite D, M in F, Q. cbn [y_nodes y_parent y_prefix y_modes length app] in F, Q.
    exists (ds ++ [(qualified sep (y_prefix k0) name, [data_node st (gap (length (y_nodes k0))) (Table l)])]). split.
    + rewrite under_inside. apply Forall2_app; [exact F|apply one_entry].
    + rewrite assign_app. cbn [app y_events y_event bind]. unfold y_start. rewrite D, M.
      rewrite (events_app _ _ _ _ _ _ Q). cbn [y_events y_event].
      erewrite end_named; [| | | |reflexivity|]; try reflexivity.
      unfold rlist. cbn [y_nodes]. rewrite items_spaces. reflexivity.
  - assert (R : Forall reads_named l).
    { cbn [texts_only] in T. rewrite forallb_forall in T. rewrite Forall_forall in *. auto. }
    cbn [events]. 
    destruct (reads_array l R (y_start Seq k0) defs eq_refl eq_refl) as [ds [F Q]].
    unfold y_start in F, Q. rewrite D, M in F, Q. cbn [y_nodes y_parent y_prefix y_modes length app] in F, Q.
    exists (ds ++ [(qualified sep (y_prefix k0) name, [data_node st (gap (length (y_nodes k0))) (Array l)])]). split.
    + rewrite under_inside. apply Forall2_app; [exact F|apply one_entry].
    + rewrite assign_app. cbn [y_events y_event bind]. unfold y_start. rewrite D, M.
      rewrite (events_app _ _ _ _ _ _ Q). cbn [y_events y_event].
      erewrite end_named; [| | | |reflexivity|]; try reflexivity.
      unfold rlist. cbn [y_nodes]. rewrite items_spaces. reflexivity.
Qed.

Lemma content_events es : forall k defs, y_events sep st es k defs = y_events sep st (content es) k defs.
Proof.
  induction es as [|e es IH]; intros k defs; [reflexivity|]. destruct e; cbn [content filter y_events];
    try (destruct (y_event sep st _ k defs) as [[k1 d1]| | | |]; cbn [bind]; [apply IH|reflexivity..]).
  cbn [y_event bind]. apply IH.
Qed.

Theorem yaml_document es d defs : content es = events d -> texts_only d = true ->
  exists k defs', y_events sep st es sink_new defs = Ok (k, defs') /\
    y_nodes k = [data_node st [] d] /\ imports sep st d defs defs'.
Proof.
  intros C T. rewrite content_events, C. destruct d as [k v|l|l].
  - destruct k; try discriminate. do 2 eexists. split; [reflexivity|]. split; [reflexivity|].
    exists []. split; [constructor|reflexivity].
  - assert (R : Forall (fun x => reads_named (snd x)) l).
    { cbn [texts_only] in T. rewrite forallb_forall in T. apply Forall_forall. intros [key x] I.
      apply all_named. exact (T _ I). }
    destruct (reads_table l R (y_start Map sink_new) defs eq_refl eq_refl) as [ds [F Q]].
    cbn [y_nodes y_parent y_prefix y_modes y_start sink_new y_defining y_mode length app] in F, Q.
    rewrite table_events. cbn [y_events y_event bind y_start sink_new y_nodes y_defining y_parent y_prefix y_mode y_modes].
    rewrite (events_app _ _ _ _ _ _ Q). cbn. do 2 eexists. split; [reflexivity|]. cbn [y_nodes].
    split; [unfold rlist; rewrite items_spaces; reflexivity|].
    exists ds. split; [|reflexivity]. rewrite under_nil in F. exact F.
  - assert (R : Forall reads_named l).
    { cbn [texts_only] in T. rewrite forallb_forall in T. apply Forall_forall. intros x I. apply all_named, T, I. }
    destruct (reads_array l R (y_start Seq sink_new) defs eq_refl eq_refl) as [ds [F Q]].
    cbn [y_nodes y_parent y_prefix y_modes y_start sink_new y_defining y_mode length app] in F, Q.
    cbn [events y_events y_event bind y_start sink_new y_nodes y_defining y_parent y_prefix y_mode y_modes].
    rewrite (events_app _ _ _ _ _ _ Q). cbn. do 2 eexists. split; [reflexivity|]. cbn [y_nodes].
    split; [unfold rlist; rewrite items_spaces; reflexivity|].
    exists ds. split; [|reflexivity]. rewrite under_nil in F. exact F.
Qed.
End Yaml.

Section Toml.
Variable sep : bytes.
Variable st : site.
Notation entry := (defined_as sep st).

Definition traverses (v : toml) : Prop := forall prefix leading defs,
  exists ds, Forall2 entry (under prefix (parts (toml_data v))) ds /\
    traverse sep st prefix v leading defs = (data_node st (toml_ws leading) (toml_data v), assign ds defs).

Lemma all_traversed v : traverses v.
Proof.
  induction v as [s|z|s|s|x|l IH|l IH] using toml_ind'; intros prefix leading defs.
  1-5: exists []; split; [constructor|reflexivity].
  - cbn [traverse toml_data]. rewrite parts_array.
    match goal with |- context [let '(_, _) := ?F 0 l true defs in _] => set (go := F) end.
    assert (K : forall l i d, Forall traverses l -> exists ds,
      Forall2 entry (under prefix (parts_from i (map toml_data l))) ds /\
      go i l (i =? 0) d = (items_of (fun w x => data_node st w x) i (map toml_data l), assign ds d)).
    { clear. intros l. induction l as [|v l IHl]; intros i d IH; [exists []; split; [constructor|reflexivity]|].
      inversion IH as [|? ? I1 I2]; subst. cbn [map parts_from items_of].
      destruct (I1 (prefix ++ [show_nat i]) (i =? 0) d) as [l1 [F1 Q1]].
      set (e1 := (qualified sep prefix (show_nat i), [data_node st (toml_ws (i =? 0)) (toml_data v)])).
      destruct (IHl (S i) (assign (l1 ++ [e1]) d) I2) as [l2 [F2 Q2]].
      exists (l1 ++ [e1] ++ l2). split.
      - rewrite under_app, under_inside, <- app_assoc. apply Forall2_app; [exact F1|].
        apply Forall2_app; [apply one_entry|exact F2].
      - cbn [go]. fold go. rewrite Q1. change (S i =? 0) with false in Q2. 
        rewrite app_assoc, assign_app.
        match goal with |- context [put ?k ?m (assign l1 d)] =>
          change (put k m (assign l1 d)) with (assign [e1] (assign l1 d)) end.
        rewrite <- assign_app, Q2. f_equal. f_equal. destruct i; reflexivity. }
    destruct (K l 0 defs IH) as [ds [F Q]]. cbn [Nat.eqb] in Q. rewrite Q. exists ds. split; [exact F|].
    rewrite items_spaces. reflexivity.
  - cbn [traverse toml_data].
    match goal with |- context [let '(_, _) := ?F l true defs in _] => set (go := F) end.
    assert (K : forall l i d, Forall (fun x => traverses (snd x)) l -> exists ds,
      Forall2 entry (under prefix (parts (Table (map (fun '(k, x) => (k, toml_data x)) l)))) ds /\
      go l (i =? 0) d = (items_of (fun w '(k, x) => Attr k (data_node st (b " ") x) st w) i
                           (map (fun '(k, x) => (k, toml_data x)) l), assign ds d)).
    { clear. intros l. induction l as [|[k v] l IHl]; intros i d IH; [exists []; split; [constructor|reflexivity]|].
      inversion IH as [|? ? I1 I2]; subst. cbn [map parts flat_map items_of snd] in *.
      destruct (I1 (prefix ++ [k]) false d) as [l1 [F1 Q1]].
      set (e1 := (qualified sep prefix k, [data_node st (toml_ws false) (toml_data v)])).
      destruct (IHl (S i) (assign (l1 ++ [e1]) d) I2) as [l2 [F2 Q2]].
      exists (l1 ++ [e1] ++ l2). split.
      - rewrite under_app, under_inside, <- app_assoc. apply Forall2_app; [exact F1|].
        apply Forall2_app; [apply one_entry|exact F2].
      - cbn [go]. fold go. rewrite Q1. change (S i =? 0) with false in Q2. 
        rewrite app_assoc, assign_app.
        match goal with |- context [put ?k ?m (assign l1 d)] =>
          change (put k m (assign l1 d)) with (assign [e1] (assign l1 d)) end.
        rewrite <- assign_app, Q2. f_equal. f_equal. f_equal. destruct i; reflexivity. }
    destruct (K l 0 defs IH) as [ds [F Q]]. cbn [Nat.eqb] in Q. rewrite Q. exists ds. split; [exact F|].
    rewrite items_spaces. reflexivity.
Qed.

Theorem toml_document table defs :
  let d := toml_data (TomlTable table) in
  exists defs', traverse sep st [] (TomlTable table) true defs = (data_node st [] d, defs') /\
    imports sep st d defs defs'.
Proof.
  intros d. destruct (all_traversed (TomlTable table) [] true defs) as [ds [F Q]].
  rewrite under_nil in F. exists (assign ds defs). split; [exact Q|]. exists ds. auto.
Qed.
End Toml.

(** ** What an import defines *)

Lemma in_inside k x ps p y : In (p, y) (inside k x ps) <->
  exists q, p = k :: q /\ (In (q, y) ps \/ (q = [] /\ y = x)).
Proof.
  unfold inside. rewrite in_app_iff, in_map_iff. split.
  - intros [[[q z] [Q I]]|[Q|[]]]; inversion Q; subst; eauto.
  - intros [q [-> [I|[-> ->]]]]; [left; exists (q, y); auto|right; left; reflexivity].
Qed.

Lemma in_parts_from l : forall i p y, In (p, y) (parts_from i l) <->
  exists j x, nth_error l j = Some x /\ In (p, y) (inside (show_nat (i + j)) x (parts x)).
Proof.
  induction l as [|x l IH]; intros i p y; cbn [parts_from].
  - split; [intros []|]. intros [[|j] [x [H _]]]; discriminate.
  - rewrite in_app_iff, IH. split.
    + intros [I|[j [z [H I]]]].
      * exists 0, x. rewrite Nat.add_0_r. auto.
      * exists (S j), z. rewrite <- plus_n_Sm. auto.
    + intros [[|j] [z [H I]]]; cbn in H.
      * inversion H; subst. rewrite Nat.add_0_r in I. auto.
      * right. exists j, z. rewrite <- plus_n_Sm in I. auto.
Qed.

Lemma parts_iff d : forall p y, In (p, y) (parts d) <-> p <> [] /\ value_at d p y.
Proof.
  induction d as [k v|l IH|l IH] using data_ind'; intros p y.
  - cbn. split; [intros []|]. intros [N H]. inversion H; subst; congruence.
  - cbn [parts]. rewrite in_flat_map. split.
    + intros [[k x] [I J]]. apply in_inside in J as [q [-> J]]. split; [discriminate|].
      apply (at_key l k x q y I). destruct J as [J|[-> ->]]; [|constructor].
      rewrite Forall_forall in IH. apply (IH _ I) in J. tauto.
    + intros [N H]. inversion H as [|? k x q ? I V|]; subst; [congruence|]. exists (k, x). split; [exact I|].
      apply in_inside. exists q. split; [reflexivity|]. destruct q as [|a q].
      * inversion V; subst. auto.
      * left. rewrite Forall_forall in IH. apply (IH _ I). split; [discriminate|exact V].
  - rewrite parts_array, in_parts_from. split.
    + intros [j [x [H J]]]. apply in_inside in J as [q [-> J]]. split; [discriminate|].
      apply (at_index l j x q y H). destruct J as [J|[-> ->]]; [|constructor].
      rewrite Forall_forall in IH. apply (IH _ (nth_error_In _ _ H)) in J. tauto.
    + intros [N H]. inversion H as [| |? i x q ? I V]; subst; [congruence|]. exists i, x. split; [exact I|].
      apply in_inside. exists q. split; [reflexivity|]. destruct q as [|a q].
      * inversion V; subst. auto.
      * left. rewrite Forall_forall in IH. apply (IH _ (nth_error_In _ _ I)). split; [discriminate|exact V].
Qed.

Lemma show_nat_inj i j : show_nat i = show_nat j -> i = j.
Proof. intros H. pose proof (digits_show_nat i) as A. rewrite H, digits_show_nat in A. inversion A. lia. Qed.

Lemma digits_from_all acc s n : digits_from acc s = Some n -> forall c, In c s -> digit c <> None.
Proof.
  revert acc. induction s as [|d s IH]; intros acc H c I; [destruct I|]. cbn in H.
  destruct (digit d) eqn:D; [|discriminate]. destruct I as [<-|I]; [congruence|eauto].
Qed.
Lemma show_nat_digits i c : In c (show_nat i) -> digit c <> None.
Proof.
  intros I. pose proof (digits_show_nat i) as H. unfold digits in H. destruct (show_nat i) eqn:Q; [discriminate|].
  eapply digits_from_all; eauto.
Qed.

(** The value at a path is unique. *)
Lemma value_at_fun d : distinct_keys d -> forall p y y', value_at d p y -> value_at d p y' -> y = y'.
Proof.
  induction d as [k v|l IH|l IH] using data_ind'; intros U p y y' A B; try rewrite Forall_forall in IH.
  - inversion A; subst; inversion B; subst; reflexivity.
  - cbn in U. destruct U as [U1 U2]. rewrite fold_and, Forall_forall in U2.
    inversion A as [|? k x q ? I V|]; subst; inversion B as [|? k' x' q' ? I' V'|]; subst; [reflexivity|].
    assert (x = x').
    { clear - U1 I I'. induction l as [|[a z] l IHl]; [destruct I|]. cbn in U1. inversion U1 as [|? ? N U]; subst.
      destruct I as [I|I], I' as [I'|I'].
      - congruence.
      - inversion I; subst. exfalso. apply N. apply (in_map fst) in I'. exact I'.
      - inversion I'; subst. exfalso. apply N. apply (in_map fst) in I. exact I.
      - auto. }
    subst x'. exact (IH _ I (U2 _ I) q y y' V V').
  - cbn in U. rewrite fold_and, Forall_forall in U.
    inversion A as [| |? i x q ? I V]; subst; inversion B as [| |? i' x' q' ? I' V']; subst; [reflexivity|].
    match goal with Q : show_nat _ = show_nat _ |- _ => apply show_nat_inj in Q; subst end. assert (x = x') by congruence. subst x'.
    exact (IH _ (nth_error_In _ _ I) (U _ (nth_error_In _ _ I)) q y y' V V').
Qed.

Lemma value_at_clean c d : digit c = None -> keys_without c d -> forall p y, value_at d p y -> Forall (fun k => ~ In c k) p.
Proof.
  intros D. induction d as [k v|l IH|l IH] using data_ind'; intros U p y A; try rewrite Forall_forall in IH;
    cbn in U; rewrite ?fold_and, ?Forall_forall in U;
    inversion A as [|? k' x q ? I V|? i x q ? I V]; subst; constructor.
  - apply (U _ I).
  - apply (IH _ I (proj2 (U _ I)) q y V).
  - intros J. apply (show_nat_digits i c J D).
  - apply (IH _ (nth_error_In _ _ I) (U _ (nth_error_In _ _ I)) q y V).
Qed.

Lemma split_join c p : p <> [] -> Forall (fun k => ~ In c k) p -> split [c] (join [c] p) = p.
Proof.
  induction p as [|x p IH]; [congruence|]. intros _ H. inversion H as [|? ? A B]; subst.
  destruct p as [|y p]; [apply split_no_sep, A|].
  change (join [c] (x :: y :: p)) with (x ++ c :: join [c] (y :: p)). rewrite split_char_app, (split_no_sep _ _ A), IH; auto; discriminate.
Qed.

(** Names defined by an import, the rest being as before. *)
Lemma imports_other sep st d defs defs' name : imports sep st d defs defs' ->
  (forall p y, value_at d p y -> p <> [] -> join sep p <> name) -> get name defs' = get name defs.
Proof.
  intros [l [F ->]] N. rewrite get_assign. destruct (find _ (rev l)) as [[k body]|] eqn:Q; [|reflexivity].
  exfalso. apply find_some in Q as [I J]. apply beq_eq in J. subst k. apply in_rev in I.
  assert (G : exists p y, In (p, y) (parts d) /\ name = join sep p).
  { clear N. induction F as [|[p y] [k body'] ps l [A _] F IH]; [destruct I|]. destruct I as [I|I].
    - inversion I; subst. cbn in A. exists p, y. split; [left; reflexivity|exact A].
    - destruct (IH I) as [p' [y' [I' Q]]]. exists p', y'. split; [right; exact I'|exact Q]. }
  destruct G as [p [y [G ->]]]. apply parts_iff in G as [G1 G2]. apply (N p y G2 G1). reflexivity.
Qed.

Lemma imports_value c st d defs defs' p y : imports [c] st d defs defs' ->
  distinct_keys d -> digit c = None -> keys_without c d ->
  value_at d p y -> p <> [] ->
  exists w, get (join [c] p) defs' = Some (variable [data_node st w y]).
Proof.
  intros [l [F ->]] U D K V N. rewrite get_assign.
  assert (G : forall name body, In (name, body) l -> name = join [c] p -> exists w, body = [data_node st w y]).
  { intros name body I ->.
    assert (G : exists p' y' w, In (p', y') (parts d) /\ join [c] p = join [c] p' /\ body = [data_node st w y']).
    { clear - F I. induction F as [|[p1 y1] [k body'] ps l [A [w Q]] F IH]; [destruct I|]. destruct I as [I|I].
      - inversion I; subst. cbn in A, Q. exists p1, y1, w. split; [left; reflexivity|auto].
      - destruct (IH I) as [p' [y' [w' [I' Q']]]]. exists p', y', w'. split; [right; exact I'|exact Q']. }
    destruct G as [p' [y' [w [I' [J ->]]]]]. apply parts_iff in I' as [N' V'].
    assert (p = p').
    { rewrite <- (split_join c p), <- (split_join c p'), J; eauto using value_at_clean. }
    subst p'. rewrite (value_at_fun d U p y y' V V'). eauto. }
  destruct (find _ (rev l)) as [[k body]|] eqn:Q.
  - apply find_some in Q as [I J]. apply beq_eq in J. apply in_rev in I.
    destruct (G _ _ I (eq_sym J)) as [w ->]. eauto.
  - exfalso. assert (I : In (p, y) (parts d)) by (apply parts_iff; auto).
    assert (H : exists body, In (join [c] p, body) l).
    { clear - F I. induction F as [|[p1 y1] [k body'] ps l [A [w Q]] F IH]; [destruct I|]. destruct I as [I|I].
      - inversion I; subst. cbn in A. subst k. eexists. left. reflexivity.
      - destruct (IH I) as [body H]. exists body. right. exact H. }
    destruct H as [body H]. apply in_rev in H. pose proof (find_none _ _ Q _ H) as B. cbn in B.
    rewrite beq_refl in B. discriminate.
Qed.

(** ** Following a path through the node, as %get does *)

Lemma spaces_nth {A} (f : bytes -> A -> node) l i x : nth_error l i = Some x ->
  exists w, nth_error (spaces f l) i = Some (f w x).
Proof.
  destruct l as [|y l]; [destruct i; discriminate|]. destruct i as [|i]; cbn; intros H; [inversion H; eauto|].
  exists (b " "). rewrite nth_error_map, H. reflexivity.
Qed.

Lemma first_value_spaces st l k x : NoDup (map fst l) -> In (k, x) l ->
  first_value k (spaces (fun w '(k, x) => Attr k (data_node st (b " ") x) st w) l) (data_node st (b " ") x).
Proof.
  assert (K : forall l, NoDup (map fst l) -> In (k, x) l ->
    first_value k (map ((fun w '(k, x) => Attr k (data_node st (b " ") x) st w) (b " ")) l) (data_node st (b " ") x)).
  { clear l. induction l as [|[j z] l IH]; intros N I; [destruct I|]. inversion N as [|? ? N1 N2]; subst.
    cbn [map]. destruct I as [I|I].
    - inversion I; subst. constructor.
    - apply fv_next; [|auto]. intros v' st' w' Q. inversion Q; subst. apply N1. apply (in_map fst) in I. exact I. }
  destruct l as [|[j z] l]; intros N I; [destruct I|]. cbn [spaces]. inversion N as [|? ? N1 N2]; subst.
  destruct I as [I|I].
  - inversion I; subst. constructor.
  - apply fv_next; [|apply K; assumption]. intros v' st' w' Q. inversion Q; subst. apply N1. apply (in_map fst) in I. exact I.
Qed.

Lemma value_at_reaches st d : distinct_keys d -> no_index_keys d -> forall p y w, value_at d p y ->
  exists w', reaches p (data_node st w d) (data_node st w' y).
Proof.
  induction d as [k v|l IH|l IH] using data_ind'; intros U X p y w A; try rewrite Forall_forall in IH.
  - inversion A; subst. exists w. constructor.
  - cbn in U, X. destruct U as [U1 U2]. rewrite fold_and, Forall_forall in U2. rewrite fold_and, Forall_forall in X.
    inversion A as [|? k x q ? I V|]; subst; [exists w; constructor|].
    destruct (IH _ I (U2 _ I) (proj2 (X _ I)) q y (b " ") V) as [w' R]. exists w'.
    econstructor; [|exact R]. cbn [data_node]. apply step_key.
    + intros i [m [P _]]. destruct (X _ I) as [X1 _]. congruence.
    + apply first_value_spaces; assumption.
  - cbn in U, X. rewrite fold_and, Forall_forall in U. destruct X as [X0 X]. rewrite fold_and, Forall_forall in X.
    inversion A as [| |? i x q ? I V]; subst; [exists w; constructor|].
    destruct (spaces_nth (fun w' x => data_node st w' x) l i x I) as [w1 N].
    destruct (IH _ (nth_error_In _ _ I) (U _ (nth_error_In _ _ I)) (X _ (nth_error_In _ _ I)) q y w1 V) as [w' R].
    exists w'. econstructor; [|exact R]. cbn [data_node]. apply step_nth; [|exact N].
    assert (i < length l) by (apply nth_error_Some; congruence). lia.
Qed.

Lemma content_app x y : content (x ++ y) = content x ++ content y.
Proof. apply filter_app. Qed.
Lemma content_of_events d : content (events d) = events d.
Proof.
  induction d as [k v|l IH|l IH] using data_ind'; [reflexivity| |].
  - rewrite table_events. change (YMapStart :: content (flat_map (fun '(k, x) => YScalar k :: events x) l ++ [YMapEnd]) =
      YMapStart :: flat_map (fun '(k, x) => YScalar k :: events x) l ++ [YMapEnd]). f_equal.
    rewrite content_app. f_equal. induction l as [|[k x] l IHl]; [reflexivity|]. inversion IH as [|? ? I1 I2]; subst.
    cbn [flat_map]. rewrite content_app. cbn [snd] in I1. rewrite IHl by assumption. f_equal.
    change (YScalar k :: content (events x) = YScalar k :: events x). rewrite I1. reflexivity.
  - change (YSeqStart :: content (flat_map events l ++ [YSeqEnd]) = YSeqStart :: flat_map events l ++ [YSeqEnd]).
    rewrite content_app. do 2 f_equal. induction l as [|x l IHl]; [reflexivity|]. inversion IH as [|? ? I1 I2]; subst.
    cbn [flat_map]. rewrite content_app, I1, IHl by assumption. reflexivity.
Qed.
