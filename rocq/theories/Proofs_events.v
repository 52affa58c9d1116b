(** * Proofs about streams of YAML events *)

From Coq Require Import String List Ascii Bool Arith Lia.
From Verif Require Import Text Res Ast Env Scope Numbers Data Spec_expand Spec_bind Spec_data Spec_events Proofs_bind Proofs_keep Proofs_data.
Import ListNotations.

Definition mode_of (p : place) : option mode :=
  match p with None => None | Some Mapping => Some Map | Some Sequence => Some Seq end.
Definition sink_of (p : place) (s : spot) (par : list (list node)) (ms : list mode) : sink :=
  Sink (named p s) (p_done s) par (p_names s) (mode_of p) ms.
Definition pushed (p : place) (ms : list mode) : list mode :=
  match mode_of p with Some m => m :: ms | None => ms end.
Definition outer (p : place) (par : list (list node)) (ms : list mode) : Prop :=
  p = None -> par = [] /\ ms = [].

Section E.
Variable sep : bytes.
Variable st : site.
Local Notation Entry := (Entry sep st).
Local Notation Entries := (Entries sep st).
Local Notation Stream := (Stream sep st).
Local Notation y_event := (y_event sep st).
Local Notation y_events := (y_events sep st).

Definition goes_on (p : place) (par : list (list node)) (ms : list mode) (es : list yevent) (r : res spot)
  : res (sink * scope) :=
  match r with
  | Ok s => y_events es (sink_of p s par ms) (p_defs s)
  | Err e => Err e | Panic q => Panic q | Hang => Hang | OutOfFuel => OutOfFuel
  end.

Lemma pop_none l : l = [] -> pop_prefix l = (None, []).
Proof. intros ->. reflexivity. Qed.
Lemma pop_some l names name : l = names ++ [name] -> pop_prefix l = (Some name, names).
Proof. intros ->. unfold pop_prefix. rewrite rev_app_distr. cbn. now rewrite rev_involutive. Qed.

Lemma start_of p s par ms k :
  y_start (match k with Mapping => Map | Sequence => Seq end) (sink_of p s par ms) =
  sink_of (Some k) (opened p s) (p_done s :: par) (pushed p ms).
Proof.
  unfold y_start, sink_of, pushed. cbn [y_nodes y_parent y_defining y_prefix y_mode y_modes].
  destruct k; cbn; destruct (mode_of p); reflexivity.
Qed.
Lemma opening_step p s par ms k es :
  y_events (opening k :: es) (sink_of p s par ms) (p_defs s) =
  y_events es (sink_of (Some k) (opened p s) (p_done s :: par) (pushed p ms)) (p_defs (opened p s)).
Proof.
  destruct k; cbn [opening Data.y_events Data.y_event bind].
  - rewrite <- (start_of p s par ms Mapping). reflexivity.
  - rewrite <- (start_of p s par ms Sequence). reflexivity.
Qed.
Lemma closing_step k es x d :
  y_events (closing k :: es) x d = (let* '(x, d) := y_end sep st x d in y_events es x d).
Proof. destruct k; reflexivity. Qed.
Lemma lead_is l : unless_first l = lead l.
Proof. reflexivity. Qed.
Lemma length_snoc {A} (l : list A) x : length l + 1 = length (l ++ [x]).
Proof. rewrite app_length. reflexivity. Qed.

Lemma end_named p k s' par ms done names name (d := p_defs s') :
  outer p par ms -> p_names s' = names ++ [name] ->
  y_end sep st (sink_of (Some k) s' (done :: par) (pushed p ms)) d =
  Ok (sink_of p (Spot None names (done ++ [labelled st p name done (fun w => list_of_all st w (p_done s'))])
             (recorded sep names name (list_of_all st (lead done) (p_done s')) d)) par ms,
      recorded sep names name (list_of_all st (lead done) (p_done s')) d).
Proof.
  intros O N. unfold y_end, sink_of. cbn [y_nodes y_parent y_defining y_prefix y_mode y_modes].
  rewrite (pop_some _ _ _ N). unfold recorded. rewrite <- qualified_join.
  destruct p as [[]|]; cbn [pushed mode_of named p_names p_key p_done labelled].
  - reflexivity.
  - rewrite (length_snoc done (list_of_all st (lead done) (p_done s'))). reflexivity.
  - destruct (O eq_refl) as [-> ->]. reflexivity.
Qed.
Lemma end_nameless p k s' par ms done (d := p_defs s') :
  outer p par ms -> p_names s' = [] -> p <> Some Mapping ->
  y_end sep st (sink_of (Some k) s' (done :: par) (pushed p ms)) d =
  Ok (sink_of p (Spot None [] (done ++ [list_of_all st (lead done) (p_done s')]) d) par ms, d).
Proof.
  intros O N P. unfold y_end, sink_of. cbn [y_nodes y_parent y_defining y_prefix y_mode y_modes].
  rewrite (pop_none _ N).
  destruct p as [[]|]; cbn [pushed mode_of named p_names p_key p_done].
  - congruence.
  - rewrite (length_snoc done (list_of_all st (lead done) (p_done s'))). reflexivity.
  - destruct (O eq_refl) as [-> ->]. reflexivity.
Qed.
Lemma end_panics k s' par ms done (d := p_defs s') :
  p_names s' = [] ->
  y_end sep st (sink_of (Some k) s' (done :: par) (pushed (Some Mapping) ms)) d = Panic PUnwrap.
Proof.
  intros N. unfold y_end, sink_of. cbn [y_nodes y_parent y_defining y_prefix y_mode y_modes].
  rewrite (pop_none _ N). reflexivity.
Qed.

Scheme entry_mut := Minimality for Spec_events.Entry Sort Prop
  with entries_mut := Minimality for Spec_events.Entries Sort Prop.
Combined Scheme entry_mutind from entry_mut, entries_mut.

Lemma outer_some k par ms : outer (Some k) par ms.
Proof. intros D. discriminate. Qed.

Lemma runs_entries :
  (forall p s x r, Entry p s x r -> forall par ms es, outer p par ms ->
     y_events (stream x ++ es) (sink_of p s par ms) (p_defs s) = goes_on p par ms es r) /\
  (forall p s l r, Entries p s l r -> forall par ms es, outer p par ms ->
     y_events (streams l ++ es) (sink_of p s par ms) (p_defs s) = goes_on p par ms es r).
Proof.
  apply (entry_mutind sep st
    (fun p s x r => forall par ms es, outer p par ms ->
       y_events (stream x ++ es) (sink_of p s par ms) (p_defs s) = goes_on p par ms es r)
    (fun p s l r => forall par ms es, outer p par ms ->
       y_events (streams l ++ es) (sink_of p s par ms) (p_defs s) = goes_on p par ms es r)).
  - intros p s par ms es O. reflexivity.
  - intros s v K par ms es O. cbn [stream app Data.y_events Data.y_event].
    unfold sink_of. cbn [y_nodes y_parent y_defining y_prefix y_mode y_modes named mode_of]. rewrite K. reflexivity.
  - intros p s v name N par ms es O. cbn [stream app Data.y_events Data.y_event].
    unfold sink_of at 1. cbn [y_nodes y_parent y_defining y_prefix y_mode y_modes]. rewrite N.
    unfold recorded. rewrite <- qualified_join.
    destruct p as [[]|]; cbn [mode_of labelled].
    + cbn [sink_of y_nodes y_parent y_prefix y_mode y_modes mode_of bind goes_on]. reflexivity.
    + cbn [sink_of y_nodes y_parent y_prefix y_mode y_modes mode_of bind goes_on named p_done p_names].
      rewrite (length_snoc (p_done s) (string_of st (lead (p_done s)) v)). reflexivity.
    + discriminate N.
  - intros s v par ms es O. reflexivity.
  - intros p s k l last s' names name _ IH N par ms es O. cbn [stream app].
    rewrite opening_step, <- app_assoc, IH by apply outer_some. cbn [goes_on app].
    rewrite closing_step, (end_named p k s' par ms (p_done s) names name O N). reflexivity.
  - intros p s k l last s' _ IH N P par ms es O. cbn [stream app].
    rewrite opening_step, <- app_assoc, IH by apply outer_some. cbn [goes_on app].
    rewrite closing_step, (end_nameless p k s' par ms (p_done s) O N P). reflexivity.
  - intros s k l last s' _ IH N par ms es O. cbn [stream app].
    rewrite opening_step, <- app_assoc, IH by apply outer_some. cbn [goes_on app].
    rewrite closing_step, (end_panics k s' par ms (p_done s) N). reflexivity.
  - intros p s k l last q _ IH par ms es O. cbn [stream app].
    rewrite opening_step, <- app_assoc, IH by apply outer_some. reflexivity.
  - intros p s par ms es O. reflexivity.
  - intros p s x l s' r _ IH1 _ IH2 par ms es O. cbn [flat_map]. rewrite <- app_assoc, IH1 by exact O. apply IH2, O.
  - intros p s x l q _ IH par ms es O. cbn [flat_map]. rewrite <- app_assoc, IH by exact O. reflexivity.
Qed.
Lemma excess_step k es s s' : Excess sep st s s' ->
  y_events (closing k :: es) (sink_of None s [] []) (p_defs s) = y_events es (sink_of None s' [] []) (p_defs s').
Proof.
  intros X. rewrite closing_step. unfold y_end, sink_of. cbn [y_nodes y_parent y_defining y_prefix y_mode y_modes].
  destruct X as [names name N|N].
  - rewrite (pop_some _ _ _ N). unfold recorded. rewrite <- qualified_join. reflexivity.
  - rewrite (pop_none _ N). reflexivity.
Qed.

Definition ends_as (r : res spot) (q : res (sink * scope)) : Prop :=
  match r with
  | Ok s => exists x, q = Ok (x, p_defs s) /\ y_nodes x = p_done s
  | Panic e => q = Panic e
  | _ => False
  end.
Lemma runs_stream p s es r : Stream p s es r -> forall par ms, outer p par ms ->
  ends_as r (y_events es (sink_of p s par ms) (p_defs s)).
Proof.
  intros H. induction H as [p s l s' H|p s l s' k es r H1 H2 IH|s l s1 s2 k es r H1 X H2 IH|p s l es q H]; intros par ms O.
  - rewrite <- (app_nil_r (streams l)), (proj2 runs_entries _ _ _ _ H par ms [] O). cbn. eauto.
  - rewrite (proj2 runs_entries _ _ _ _ H1 par ms _ O). cbn [goes_on]. rewrite opening_step.
    apply IH, outer_some.
  - destruct (O eq_refl) as [-> ->]. rewrite (proj2 runs_entries _ _ _ _ H1 [] [] _ O). cbn [goes_on].
    rewrite (excess_step k es s1 s2 X). apply IH, O.
  - rewrite (proj2 runs_entries _ _ _ _ H par ms _ O). reflexivity.
Qed.

(** Every stream has a meaning. *)
Lemma names_cases (l : list bytes) : l = [] \/ exists names name, l = names ++ [name].
Proof. destruct l as [|x l'] using rev_ind; eauto. Qed.

Fixpoint entry_ind' (P : entry -> Prop) (HS : forall v, P (Scalar v)) (HO : P Other)
  (HN : forall k l last, Forall P l -> P (Nested k l last)) (x : entry) {struct x} : P x :=
  match x with
  | Scalar v => HS v
  | Other => HO
  | Nested k l last => HN k l last
      ((fix go (l : list entry) : Forall P l :=
          match l with [] => List.Forall_nil P | y :: l' => @List.Forall_cons entry P y l' (entry_ind' P HS HO HN y) (go l') end) l)
  end.

Definition done_or_panics (r : res spot) : Prop := (exists s, r = Ok s) \/ (exists q, r = Panic q).
Lemma entries_exist (l : list entry) :
  Forall (fun x => forall p s, exists r, Entry p s x r /\ done_or_panics r) l ->
  forall p s, exists r, Entries p s l r /\ done_or_panics r.
Proof.
  intros F. induction F as [|x l Hx _ IH]; intros p s.
  - exists (Ok s). split; [constructor|left; eauto].
  - destruct (Hx p s) as [r [R [[s' ->]|[q ->]]]].
    + destruct (IH p s') as [r' [R' D]]. exists r'. split; [econstructor; eassumption|exact D].
    + exists (Panic q). split; [constructor; exact R|right; eauto].
Qed.
Lemma entry_exists x : forall p s, exists r, Entry p s x r /\ done_or_panics r.
Proof.
  induction x as [v| |k l last IH] using entry_ind'; intros p s.
  - destruct p as [[]|].
    + destruct (p_key s) as [name|] eqn:K; eexists.
      * split; [apply (en_scalar sep st (Some Mapping)); exact K|left; eauto].
      * split; [apply en_key; exact K|left; eauto].
    + eexists. split; [apply (en_scalar sep st (Some Sequence)); reflexivity|left; eauto].
    + eexists. split; [apply en_document|left; eauto].
  - eexists. split; [apply en_other|left; eauto].
  - destruct (entries_exist l IH (Some k) (opened p s)) as [r [R [[s' ->]|[q ->]]]].
    + destruct (names_cases (p_names s')) as [N|[names [name N]]].
      * assert (p = Some Mapping \/ p <> Some Mapping) as [->|P] by (destruct p as [[]|]; auto; right; discriminate).
        -- eexists. split; [eapply en_panics; eassumption|right; eauto].
        -- eexists. split; [eapply en_nameless; eassumption|left; eauto].
      * eexists. split; [eapply en_nested; eassumption|left; eauto].
    + eexists. split; [eapply en_inside; eassumption|right; eauto].
Qed.
Lemma entries_all l p s : exists r, Entries p s l r /\ done_or_panics r.
Proof. apply entries_exist. apply Forall_forall. intros x _. apply entry_exists. Qed.

(** Events up to the first end of a collection that does not begin in them. *)
Inductive unclosed : list yevent -> Prop :=
| uc_all l : unclosed (streams l)
| uc_open l k es : unclosed es -> unclosed (streams l ++ opening k :: es).
Definition closed_at (es : list yevent) (l : list entry) (k : nest) (rest : list yevent) : Prop :=
  es = streams l ++ closing k :: rest.
Lemma unclosed_cons x es : unclosed es -> unclosed (stream x ++ es).
Proof.
  intros [l|l k es' U].
  - apply (uc_all (x :: l)).
  - rewrite app_assoc. apply (uc_open (x :: l)), U.
Qed.
Lemma closed_cons x es l k rest : closed_at es l k rest -> closed_at (stream x ++ es) (x :: l) k rest.
Proof. intros ->. unfold closed_at. cbn [flat_map]. now rewrite app_assoc. Qed.
Lemma split_events n : forall es, length es <= n ->
  unclosed es \/ exists l k rest, closed_at es l k rest.
Proof.
  induction n as [|n IH]; intros es L.
  - destruct es; [|cbn in L; lia]. left. apply (uc_all []).
  - assert (ONE : forall x es', stream x ++ es' = es -> length es' <= n ->
      unclosed es \/ exists l k rest, closed_at es l k rest).
    { intros x es' <- L'. destruct (IH es' L') as [U|[l [k [rest C]]]].
      - left. apply unclosed_cons, U.
      - right. exists (x :: l), k, rest. apply closed_cons, C. }
    assert (OPEN : forall k es', opening k :: es' = es -> length es' <= n ->
      unclosed es \/ exists l k rest, closed_at es l k rest).
    { intros k es' <- L'. destruct (IH es' L') as [U|[l [k' [rest C]]]].
      - left. apply (uc_open [] k es' U).
      - apply (ONE (Nested k l k') rest).
        + cbn [stream app]. rewrite C, <- app_assoc. reflexivity.
        + rewrite C in L'. rewrite app_length in L'. cbn in L'. lia. }
    destruct es as [|[v| | | | |] es']; cbn in L.
    + left. apply (uc_all []).
    + apply (ONE (Scalar v) es'); [reflexivity|lia].
    + apply (OPEN Mapping es'); [reflexivity|lia].
    + right. exists [], Mapping, es'. reflexivity.
    + apply (OPEN Sequence es'); [reflexivity|lia].
    + right. exists [], Sequence, es'. reflexivity.
    + apply (ONE Other es'); [reflexivity|lia].
Qed.
Lemma unclosed_exists es : unclosed es -> forall p s, exists r, Stream p s es r /\ done_or_panics r.
Proof.
  intros U. induction U as [l|l k es U IH]; intros p s.
  - destruct (entries_all l p s) as [r [R [[s' ->]|[q ->]]]].
    + eexists. split; [apply st_all; exact R|left; eauto].
    + exists (Panic q). split; [|right; eauto]. rewrite <- (app_nil_r (streams l)). apply st_panic, R.
  - destruct (entries_all l p s) as [r [R [[s' ->]|[q ->]]]].
    + destruct (IH (Some k) (opened p s')) as [r' [R' D]]. exists r'. split; [eapply st_open; eassumption|exact D].
    + exists (Panic q). split; [|right; eauto]. apply st_panic, R.
Qed.
Lemma excess_exists s : exists s', Excess sep st s s'.
Proof.
  destruct (names_cases (p_names s)) as [N|[names [name N]]]; eexists.
  - apply ex_nameless, N.
  - apply ex_named, N.
Qed.
Lemma stream_exists n : forall es, length es <= n -> forall s, exists r, Stream None s es r /\ done_or_panics r.
Proof.
  induction n as [|n IH]; intros es L s.
  - apply unclosed_exists. destruct es; [|cbn in L; lia]. apply (uc_all []).
  - destruct (split_events (length es) es (le_n _)) as [U|[l [k [rest C]]]]; [apply unclosed_exists, U|].
    unfold closed_at in C. subst es.
    destruct (entries_all l None s) as [r [R [[s' ->]|[q ->]]]].
    + destruct (excess_exists s') as [s2 X].
      destruct (IH rest ltac:(rewrite app_length in L; cbn in L; lia) s2) as [r [R' D]].
      exists r. split; [eapply st_excess; eassumption|exact D].
    + exists (Panic q). split; [|right; eauto]. apply st_panic, R.
Qed.
End E.

(** ** The importer *)

Lemma yaml_text E text sep st d q : YamlText E text sep st d q -> expand_yaml E text sep st d = q.
Proof.
  unfold expand_yaml.
  intros [es s Y H|es s Y H|es ok q' Y H]; rewrite Y;
    apply runs_stream with (par := []) (ms := []) in H; try (intros _; split; reflexivity);
    change (sink_of None {| p_key := None; p_names := []; p_done := []; p_defs := d |} [] []) with sink_new in H;
    cbn [p_defs ends_as] in H.
  - destruct H as [x [-> N]]. cbn. now rewrite N.
  - destruct H as [x [-> N]]. reflexivity.
  - rewrite H. reflexivity.
Qed.
Lemma yaml_text_iff E text sep st d q : expand_yaml E text sep st d = q <-> YamlText E text sep st d q.
Proof.
  split; [|apply yaml_text]. intros <-. destruct (e_yaml E text) as [es ok] eqn:Y.
  destruct (stream_exists sep st (length es) es (le_n _) (Spot None [] [] d)) as [r [H [[s ->]|[q ->]]]].
  - destruct ok.
    + pose proof (yt_reads E text sep st d es s Y H) as R. rewrite (yaml_text _ _ _ _ _ _ R). exact R.
    + pose proof (yt_breaks E text sep st d es s Y H) as R. rewrite (yaml_text _ _ _ _ _ _ R). exact R.
  - pose proof (yt_panics E text sep st d es ok q Y H) as R. rewrite (yaml_text _ _ _ _ _ _ R). exact R.
Qed.

(** ** TOML *)

Section T.
Variable sep : bytes.
Variable st : site.
Fixpoint values_from (i : nat) (l : list data) : list (list bytes * node) :=
  match l with
  | [] => []
  | x :: l' =>
      (below (show_nat i) (values_in st x) ++
       [([show_nat i], data_node st (match i with 0 => [] | _ => b " " end) x)]) ++ values_from (S i) l'
  end.
Lemma values_array l : values_in st (Array l) = values_from 0 l.
Proof. reflexivity. Qed.
Definition defs_of (prefix : list bytes) (l : list (list bytes * node)) : list (bytes * list node) :=
  map (fun '(p, v) => (join sep (prefix ++ p), [v])) l.
Lemma defs_below prefix k l v :
  defs_of prefix (below k l ++ [([k], v)]) = defs_of (prefix ++ [k]) l ++ [(qualified sep prefix k, [v])].
Proof.
  unfold defs_of, below. rewrite map_app, map_map. cbn [map]. rewrite qualified_join. f_equal.
  apply map_ext. intros [p w]. now rewrite <- app_assoc.
Qed.
Lemma defs_of_app prefix x y : defs_of prefix (x ++ y) = defs_of prefix x ++ defs_of prefix y.
Proof. apply map_app. Qed.

Definition walked (v : toml) : Prop := forall prefix leading defs,
  traverse sep st prefix v leading defs =
  (data_node st (toml_ws leading) (toml_data v), assign (defs_of prefix (values_in st (toml_data v))) defs).
Lemma put_assign k m l d : put k (variable [m]) (assign l d) = assign (l ++ [(k, [m])]) d.
Proof. rewrite assign_app. reflexivity. Qed.
Lemma all_walked v : walked v.
Proof.
  induction v as [s|z|s|s|x|l IH|l IH] using toml_ind'; intros prefix leading defs.
  1-5: reflexivity.
  - cbn [traverse toml_data]. rewrite values_array.
    match goal with |- context [let '(_, _) := ?F 0 l true defs in _] => set (go := F) end.
    assert (K : forall l i d, Forall walked l ->
      go i l (i =? 0) d = (items_of (fun w x => data_node st w x) i (map toml_data l),
                           assign (defs_of prefix (values_from i (map toml_data l))) d)).
    { clear. intros l. induction l as [|v l IHl]; intros i d IH; [reflexivity|].
      inversion IH as [|? ? I1 I2]; subst. cbn [map values_from items_of].
      rewrite defs_of_app, defs_below, assign_app.
      cbn [go]. fold go. rewrite (I1 (prefix ++ [show_nat i]) (i =? 0) d), put_assign.
      rewrite (IHl (S i) _ I2). f_equal; destruct i; reflexivity. }
    specialize (K l 0 defs IH). cbn [Nat.eqb] in K. rewrite K. rewrite items_spaces. reflexivity.
  - cbn [traverse toml_data].
    match goal with |- context [let '(_, _) := ?F l true defs in _] => set (go := F) end.
    assert (K : forall l i d, Forall (fun x => walked (snd x)) l ->
      go l (i =? 0) d = (items_of (fun w '(k, x) => Attr k (data_node st (b " ") x) st w) i
                           (map (fun '(k, x) => (k, toml_data x)) l),
         assign (defs_of prefix (values_in st (Table (map (fun '(k, x) => (k, toml_data x)) l)))) d)).
    { clear. intros l. induction l as [|[k v] l IHl]; intros i d IH; [reflexivity|].
      inversion IH as [|? ? I1 I2]; subst. cbn [map values_in flat_map items_of snd] in *.
      rewrite defs_of_app, defs_below, assign_app.
      cbn [go]. fold go. rewrite (I1 (prefix ++ [k]) false d), put_assign.
      rewrite (IHl (S i) _ I2). f_equal. destruct i; reflexivity. }
    specialize (K l 0 defs IH). cbn [Nat.eqb] in K. rewrite K. rewrite items_spaces. reflexivity.
Qed.
End T.

Lemma toml_text_iff E text sep st d q : expand_toml E text sep st d = q <-> TomlText E text sep st d q.
Proof.
  unfold expand_toml. split.
  - intros <-. destruct (e_toml E text) as [t|] eqn:T; [|apply tt_breaks, T].
    rewrite (all_walked sep st (TomlTable t) [] true d). apply (tt_reads E text sep st d t T).
  - intros [t x T|T]; rewrite T; [|reflexivity].
    rewrite (all_walked sep st (TomlTable t) [] true d). reflexivity.
Qed.
