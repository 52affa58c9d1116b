(** * Tools for the examples beside the theorems about macro expansion *)

From Coq Require Import String List Ascii Bool Arith Permutation ZArith.
From Verif Require Import Text Res Numbers Ast Parser Format Env Scope State Args Expander
  Spec_expand Proofs_text Proofs_run Proofs_eval Conformance.
Import ListNotations.

Definition display (ns : list node) : bytes := flat_map (display_node (fun _ => true)) ns.

(** The program [src], expanded under [E] from the beginning, gives nodes
    displayed as [text]. *)
Definition yields (E : env) (src text : bytes) : Prop :=
  exists tree ns s, parse (e_unescape E) 0 src = Ok tree /\
    evals E tree (initial [] src) (Ok (ns, s)) /\ display ns = text.
(** It fails with an error of kind [k]. *)
Definition rejects (E : env) (src : bytes) (k : ekind) : Prop :=
  exists tree st, parse (e_unescape E) 0 src = Ok tree /\
    evals E tree (initial [] src) (Err (EErr k st)).
(** It panics. *)
Definition panics (E : env) (src : bytes) (p : panic) : Prop :=
  exists tree, parse (e_unescape E) 0 src = Ok tree /\
    evals E tree (initial [] src) (Panic p).

Definition fuel := 60.
Definition outcome (E : env) (src : bytes) : out :=
  let* tree := parse (e_unescape E) 0 src in expand_nodes E fuel tree (initial [] src).
Definition shown_as (r : out) : res bytes := rmap (fun '(ns, _) => display ns) r.
Definition error_kind (r : out) : option ekind :=
  match r with Err (EErr k _) => Some k | _ => None end.

Lemma evals_at E f tree s : expand_nodes E f tree s <> OutOfFuel ->
  evals E tree s (expand_nodes E f tree s).
Proof. intros H. exact (settles_at _ f (growing_nodes E tree s) H). Qed.

Lemma yields_by E src text : shown_as (outcome E src) = Ok text -> yields E src text.
Proof.
  unfold outcome, yields. destruct (parse (e_unescape E) 0 src) as [t| | | |] eqn:P; try discriminate.
  cbn [bind]. destruct (expand_nodes E fuel t (initial [] src)) as [[ns s]| | | |] eqn:R; try discriminate.
  cbn. intros H. apply (f_equal (fun x => match x with Ok y => y | _ => [] end)) in H.
  exists t, ns, s. split; [reflexivity|]. split; [|exact H].
  rewrite <- R. apply evals_at. rewrite R. discriminate.
Qed.

Lemma rejects_by E src k : error_kind (outcome E src) = Some k ->
  (match parse (e_unescape E) 0 src with Ok _ => true | _ => false end) = true -> rejects E src k.
Proof.
  unfold outcome, rejects. destruct (parse (e_unescape E) 0 src) as [t| | | |] eqn:P; try discriminate.
  cbn [bind]. destruct (expand_nodes E fuel t (initial [] src)) as [|e| | |] eqn:R; try discriminate.
  destruct e as [k' st]. intros H _. apply (f_equal (fun x => match x with Some y => y | _ => k end)) in H.
  cbn in H. subst. exists t, st. split; [reflexivity|].
  rewrite <- R. apply evals_at. rewrite R. discriminate.
Qed.

Lemma panics_by E src p : outcome E src = Panic p ->
  (match parse (e_unescape E) 0 src with Ok _ => true | _ => false end) = true -> panics E src p.
Proof.
  unfold outcome, panics. destruct (parse (e_unescape E) 0 src) as [t| | | |] eqn:P; try discriminate.
  cbn [bind]. intros R _. exists t. split; [reflexivity|].
  rewrite <- R. apply evals_at. rewrite R. discriminate.
Qed.

(** The first node of a source, and its arguments if it is an invocation. *)
Definition node_of (src : bytes) : node :=
  match parse unescape0 0 src with Ok (n :: _) => n | _ => Lst [] (Site 0 0 0 0 0) [] (Site 0 0 0 0 0) [] end.
Definition args_of (n : node) : list node := match n with Lst (_ :: t) _ _ _ _ => t | _ => [] end.
Definition name_of (n : node) : bytes :=
  match n with Lst (Sym a :: _) _ _ _ _ => a_val a | _ => [] end.

(** The invocation [src] of macro [name] meets the hypotheses of the theorems
    about that macro, and gives [text]. *)
Definition example_call (E : env) (name src text : bytes) : Prop :=
  let n := node_of src in
  is_call name (args_of n) n /\
  exists ns s, eval E n (initial [] src) (Ok (ns, s)) /\ display ns = text.

Lemma example_by E name src text :
  name_of (node_of src) = b "%" ++ name ->
  shown_as (expand_node E fuel (node_of src) (initial [] src)) = Ok text ->
  example_call E name src text.
Proof.
  intros N H. split.
  - destruct (node_of src) as [a|a|a|a|[|[a|a|a|a| | ] l] st ew es w|]; try discriminate.
    exists a, st, ew, es, w. split; [reflexivity|exact N].
  - destruct (expand_node E fuel (node_of src) (initial [] src)) as [[ns s]| | | |] eqn:R; try discriminate.
    exists ns, s. split.
    + rewrite <- R.
      refine (settles_at (fun f => expand_node E f (node_of src) (initial [] src)) fuel _ _);
        [apply growing_run|rewrite R; discriminate].
    + cbn in H. apply (f_equal (fun x => match x with Ok y => y | _ => [] end)) in H. exact H.
Qed.

(** The environment of the conformance tests, with no files. *)
Definition env1 : env := env0 [].
Lemma env1_order : forall seed l, Permutation (e_order env1 seed l) l.
Proof. intros. apply Permutation_refl. Qed.

(** It fails with an error of kind [k] at offset [o], [n] bytes long. *)
Definition rejects_at (E : env) (src : bytes) (k : ekind) (o n : nat) : Prop :=
  exists tree st, parse (e_unescape E) 0 src = Ok tree /\
    evals E tree (initial [] src) (Err (EErr k st)) /\ s_off st = o /\ s_span st = n.
Definition error_spot (r : out) : option (ekind * nat * nat) :=
  match r with Err (EErr k st) => Some (k, s_off st, s_span st) | _ => None end.
Lemma rejects_at_by E src k o n : error_spot (outcome E src) = Some (k, o, n) ->
  (match parse (e_unescape E) 0 src with Ok _ => true | _ => false end) = true -> rejects_at E src k o n.
Proof.
  unfold outcome, rejects_at. destruct (parse (e_unescape E) 0 src) as [t| | | |] eqn:P; try discriminate.
  cbn [bind]. destruct (expand_nodes E fuel t (initial [] src)) as [|e| | |] eqn:R; try discriminate.
  destruct e as [k' st]. cbn. intros H _. inversion H; subst. exists t, st. split; [reflexivity|].
  split; [|auto]. rewrite <- R. apply evals_at. rewrite R. discriminate.
Qed.

(** It writes these lines to the log. *)
Definition logs (E : env) (src : bytes) (lines : list bytes) : Prop :=
  exists tree ns s, parse (e_unescape E) 0 src = Ok tree /\
    evals E tree (initial [] src) (Ok (ns, s)) /\ map snd (g_log (x_world s)) = lines.
Definition log_of (r : out) : option (list bytes) :=
  match r with Ok (_, s) => Some (map snd (g_log (x_world s))) | _ => None end.
Lemma logs_by E src lines : log_of (outcome E src) = Some lines -> logs E src lines.
Proof.
  unfold outcome, logs. destruct (parse (e_unescape E) 0 src) as [t| | | |] eqn:P; try discriminate.
  cbn [bind]. destruct (expand_nodes E fuel t (initial [] src)) as [[ns s]| | | |] eqn:R; try discriminate.
  cbn. intros H. inversion H. exists t, ns, s. split; [reflexivity|]. split; [|congruence].
  rewrite <- R. apply evals_at. rewrite R. discriminate.
Qed.

Ltac shows := first [apply yields_by | apply example_by; [vm_compute; reflexivity|]]; vm_compute; reflexivity.
Ltac fails_with := first [apply rejects_by | apply panics_by | apply rejects_at_by | apply logs_by]; vm_compute; reflexivity.
Ltac runs := repeat match goal with |- _ /\ _ => split end; first [shows | fails_with].

Lemma expanded_by E f p t (P : list node -> state -> Prop) :
  match expand E f p t with Ok (ns, s') => P ns s' | _ => False end ->
  exists ns s', expand E f p t = Ok (ns, s') /\ P ns s'.
Proof. destruct (expand E f p t) as [[ns s']| | | |]; intros H; try contradiction. eauto. Qed.
Lemma failed_by E f p t k (P : site -> Prop) :
  match expand E f p t with Err (EErr k' st) => k' = k /\ P st | _ => False end ->
  exists st, expand E f p t = Err (EErr k st) /\ P st.
Proof.
  destruct (expand E f p t) as [|[k' st]| | |]; intros H; try contradiction. destruct H as [-> H]. eauto.
Qed.

(** The same environment with some documents the parser libraries understand,
    a listing of files, and dates: every date is printed as the seconds, the
    offset and the format; a date to be read is a number, with a zone if it
    ends in [Z]. *)
Definition with_unsorted (u : list (list comparison) -> option (list nat)) (E : env) : env := {|
  e_unsorted := u; e_unlisted := e_unlisted E; e_order := e_order E; e_unescape := e_unescape E; e_read := e_read E; e_includes := e_includes E;
  e_getenv := e_getenv E; e_hash := e_hash E; e_float := e_float E; e_fixed := e_fixed E;
  e_local := e_local E; e_time_ok := e_time_ok E; e_date := e_date E; e_parse_date := e_parse_date E;
  e_parse_naive := e_parse_naive E; e_template := e_template E; e_format := e_format E;
  e_html := e_html E; e_front := e_front E; e_yaml := e_yaml E; e_toml := e_toml E; e_glob := e_glob E
|}.
Definition look {A} (x : bytes) (l : list (bytes * A)) : option A :=
  option_map snd (find (fun '(y, _) => beq x y) l).
Definition unzoned (d : bytes) : option bytes :=
  match rev d with c :: r => if Ascii.eqb c "Z"%char then Some (rev r) else None | [] => None end.
Definition docs (yamls : list (bytes * (list yevent * bool))) (tomls : list (bytes * list (bytes * toml)))
  (marks : list (bytes * (option front * option bytes)))
  (globs : list (bytes * list (option (bytes * option meta)))) : env := {|
  e_order := fun _ l => l;
  e_unescape := unescape0;
  e_read := fun _ => None;
  e_includes := [];
  e_getenv := e_getenv env1;
  e_hash := e_hash env1;
  e_float := e_float env1;
  e_fixed := e_fixed env1;
  e_local := 3600%Z;
  e_time_ok := fun z => (Z.abs z <? 10 ^ 12)%Z;
  e_date := fun i off fmt =>
    if beq fmt (b "%") then None else
    Some ((match i with At z => show_Z z | Now => b "now" end) ++ b "+" ++ show_Z off ++ b " " ++ fmt);
  e_parse_date := fun _ d => match unzoned d with Some d => parse_i64 d | None => None end;
  e_parse_naive := fun _ d => parse_i64 d;
  e_template := fun _ => true;
  e_format := fun _ _ => None;
  e_html := fun t => match look t marks with Some (_, h) => h | None => None end;
  e_front := fun t => match look t marks with Some (f, _) => f | None => None end;
  e_yaml := fun t => match look t yamls with Some y => y | None => ([], false) end;
  e_toml := fun t => look t tomls;
  e_glob := fun t => look t globs;
  e_unsorted := fun _ => None;
  e_unlisted := fun _ => (0, [])
|}.
