(** * Property C37: termination of expansion *)

From Coq Require Import String List Ascii Bool Arith Permutation.
From Verif Require Import Text Res Ast Env Scope State Args Bind Parser Expander
  Spec_args Spec_expand Spec_builtin Spec_bind Spec_scope Spec_loop
  Proofs_run Proofs_eval Proofs_bind Proofs_loop Conformance Runs Properties_macros.
Import ListNotations.

(** ** The budget *)

(** Once a budget suffices, the outcome is the same for every larger one. *)
Theorem c37_budget : forall E f f' path text, f <= f' -> expand E f path text <> OutOfFuel ->
  expand E f' path text = expand E f path text.
Proof. intros E f f' path text L N. destruct (expand_le E f f' path text L); congruence. Qed.
Print Assumptions c37_budget.

(** So no two budgets give different outcomes. *)
Theorem c37_unique : forall E f f' path text,
  expand E f path text <> OutOfFuel -> expand E f' path text <> OutOfFuel ->
  expand E f path text = expand E f' path text.
Proof.
  intros E f f' path text N N'. destruct (Nat.le_ge_cases f f') as [L|L].
  - destruct (expand_le E f f' path text L); congruence.
  - destruct (expand_le E f' f path text L); congruence.
Qed.
Print Assumptions c37_unique.

(** ** Termination *)

(** For macro-free sources the nesting depth is enough. *)
Theorem c37_macro_free : forall E f path text tree,
  parse (e_unescape E) 0 text = Ok tree -> Forall macro_free tree -> Forall (fun n => depth n <= f) tree ->
  exists s, expand E f path text = Ok (tree, s).
Proof. exact free_program. Qed.
Print Assumptions c37_macro_free.

Example c37_depth : exists tree, parse (e_unescape env1) 0 (b "(a :k (b (c)))") = Ok tree /\ Forall macro_free tree /\
  map depth tree = [5] /\ expand env1 4 [] (b "(a :k (b (c)))") = OutOfFuel.
Proof.
  eexists. split; [vm_compute; reflexivity|]. split; [repeat constructor|]. split; vm_compute; reflexivity.
Qed.

(** ** Divergence *)

(** A macro that calls itself, a variable whose value contains it, and a file
    that includes itself exhaust every budget. *)
Theorem c37_macro : forall E, permuting E -> forall m name, find_builtin name = None ->
  ~ In name (flat_map param_variables (m_params m)) -> leads_to (calls m name) (m_body m) ->
  forall n s, calls m name n -> get name (x_defs s) = Some m -> diverges E n s.
Proof. intros E O m name B V L n s C G f. exact (macro_diverges E m name O B V L f n s C G). Qed.
Print Assumptions c37_macro.

Theorem c37_variable : forall E m name, m_params m = [] -> leads_to (uses name) (m_body m) ->
  forall n s, uses name n -> get name (x_defs s) = Some m -> diverges E n s.
Proof. intros E m name P L n s U G f. exact (variable_diverges E m name P L f n s U G). Qed.
Print Assumptions c37_variable.

Theorem c37_include : forall E file p text,
  first_readable E (candidates true (e_includes E) file) p text ->
  (forall id, exists tree, parse (e_unescape E) id text = Ok tree /\ leads_to (includes file) tree) ->
  forall n s, includes file n -> diverges E n s.
Proof. intros E file p text R T n s I f. exact (include_diverges E file p text R T f n s I). Qed.
Print Assumptions c37_include.

(** A program that comes to such a node has no result. *)
Theorem c37_program : forall E path text tree before n after ns s,
  parse (e_unescape E) 0 text = Ok tree -> tree = before ++ n :: after ->
  evals E before (initial path text) (Ok (ns, s)) -> diverges E n s -> program_diverges E path text.
Proof. exact program_out. Qed.
Print Assumptions c37_program.

(** Examples. *)
Definition c37_at (E : env) (src : bytes) (k : nat) : node :=
  match parse (e_unescape E) 0 src with Ok t => nth k t (Lst [] (Site 0 0 0 0 0) [] (Site 0 0 0 0 0) []) | _ => node_of [] end.
Definition c37_state (E : env) (src : bytes) (k : nat) : state :=
  match parse (e_unescape E) 0 src with
  | Ok t => match expand_nodes E 60 (firstn k t) (initial [] src) with Ok (_, s) => s | _ => initial [] [] end
  | _ => initial [] []
  end.
Lemma c37_by E src k : (match parse (e_unescape E) 0 src with
    | Ok t => (k <? length t) && match expand_nodes E 60 (firstn k t) (initial [] src) with Ok _ => true | _ => false end
    | _ => false end) = true ->
  diverges E (c37_at E src k) (c37_state E src k) -> program_diverges E [] src.
Proof.
  unfold c37_at, c37_state. destruct (parse (e_unescape E) 0 src) as [t| | | |] eqn:P; try discriminate.
  intros H. apply andb_prop in H as [K H]. apply Nat.ltb_lt in K.
  destruct (expand_nodes E 60 (firstn k t) (initial [] src)) as [[ns s]| | | |] eqn:R; try discriminate. intros D.
  eapply (c37_program E [] src t (firstn k t) _ (skipn (S k) t) ns s P); [| |exact D].
  - rewrite <- (firstn_skipn k t) at 1. f_equal. clear -K. revert k K. induction t as [|x t IH]; intros [|k] K; cbn in *;
      try (apply Nat.nlt_0_r in K; contradiction); [reflexivity|]. apply IH, Nat.succ_lt_mono, K.
  - rewrite <- R. apply evals_at. rewrite R. discriminate.
Qed.


Lemma is_call_by name n : name_of n = b "%" ++ name -> is_call name (args_of n) n.
Proof.
  destruct n as [a|a|a|a|[|[a|a|a|a| | ] l] st ew es w|]; try discriminate.
  intros H. exists a, st, ew, es, w. split; [reflexivity|exact H].
Qed.
Lemma calls_by m name n : name_of n = b "%" ++ name -> Forall macro_free (args_of n) ->
  (match bind_list env1 (Site 0 0 0 0 0) (m_params m) (received (args_of n)) (initial [] []) with
   | Ok _ => true | _ => false end) = true -> calls m name n.
Proof.
  intros N F B. destruct (c25_binding env1 env1_order (Site 0 0 0 0 0) (m_params m)
    (received (args_of n)) (initial [] [])) as [[s1 [l [_ [H _]]]]|[_ [e H]]].
  - exists (args_of n), l. split; [apply is_call_by, N|]. split; [exact F|exact H].
  - rewrite H in B. discriminate B.
Qed.

Definition c37_macro_of (E : env) (src name : bytes) : macro :=
  match get name (x_defs (c37_state E src 1)) with Some m => m | None => Macro [] [] end.
Definition c37_found (E : env) (src name : bytes) : bool :=
  match get name (x_defs (c37_state E src 1)) with Some m => true | None => false end.
Lemma c37_get E src name : c37_found E src name = true ->
  get name (x_defs (c37_state E src 1)) = Some (c37_macro_of E src name).
Proof. unfold c37_found, c37_macro_of. destruct (get name _); [reflexivity|discriminate]. Qed.

Definition c37_recursion := b "(%define (f x) a (%f b)) (%f c)".
Example c37_macro_example : program_diverges env1 [] c37_recursion.
Proof.
  apply (c37_by env1 c37_recursion 1); [vm_compute; reflexivity|].
  assert (G := c37_get env1 c37_recursion (b "f") ltac:(vm_compute; reflexivity)).
  remember (c37_macro_of env1 c37_recursion (b "f")) as m eqn:M. vm_compute in M.
  apply (c37_macro env1 env1_order m (b "f")); [reflexivity| | | |exact G]; subst m; clear G.
  - vm_compute. intros [H|[]]. discriminate H.
  - eexists [_], _, []. split; [reflexivity|]. split; [repeat constructor|].
    apply calls_by; [reflexivity|repeat constructor|vm_compute; reflexivity].
  - remember (c37_at env1 c37_recursion 1) as n eqn:N. vm_compute in N. subst n.
    apply calls_by; [reflexivity|repeat constructor|vm_compute; reflexivity].
Qed.

(** The value of [x] is the symbol [%x]. *)
Definition c37_value := b "(%define x (%symbol ""%x"")) %x".
Example c37_variable_example : program_diverges env1 [] c37_value.
Proof.
  apply (c37_by env1 c37_value 1); [vm_compute; reflexivity|].
  assert (G := c37_get env1 c37_value (b "x") ltac:(vm_compute; reflexivity)).
  remember (c37_macro_of env1 c37_value (b "x")) as m eqn:M. vm_compute in M.
  apply (c37_variable env1 m (b "x")); [| | |exact G]; subst m; clear G.
  - reflexivity.
  - eexists [], _, []. split; [reflexivity|]. split; [constructor|]. eexists. split; reflexivity.
  - remember (c37_at env1 c37_value 1) as n eqn:N. vm_compute in N. subst n. eexists. split; reflexivity.
Qed.

Definition c37_file := b "x (%include loop)".
Definition c37_env : env := env0 [(b "./loop", c37_file)].
Example c37_include_example : program_diverges c37_env [] (b "(%include loop)").
Proof.
  apply (c37_by c37_env (b "(%include loop)") 0); [vm_compute; reflexivity|].
  apply (c37_include c37_env (b "loop") (b "./loop") c37_file).
  - remember (candidates true (e_includes c37_env) (b "loop")) as l eqn:L. vm_compute in L. subst l.
    exists [], [b "./loop.sex"]. split; [reflexivity|]. split; [constructor|vm_compute; reflexivity].
  - intros id. remember (parse (e_unescape c37_env) id c37_file) as r eqn:R. vm_compute in R.
    subst r. eexists. split; [reflexivity|].
    eexists [_], _, []. split; [reflexivity|]. split; [repeat constructor|].
    eexists _, _. split; [do 5 eexists; split; reflexivity|]. split; [repeat constructor|]. split; reflexivity.
  - remember (c37_at c37_env (b "(%include loop)") 0) as n eqn:N. vm_compute in N. subst n.
    eexists _, _. split; [do 5 eexists; split; reflexivity|]. split; [repeat constructor|]. split; reflexivity.
Qed.
