(** * Properties of macro expansion: variables, macros and binding (C21-C27, C33, C44) *)

From Coq Require Import String List Ascii Bool Arith NArith ZArith Permutation.
From Verif Require Import Text Res Ast Args Env Scope State Bind Expander Parser
  Spec_args Spec_expand Spec_builtin Spec_bind Spec_control Spec_scope Spec_sort
  Proofs_run Proofs_eval Proofs_args Proofs_builtin Proofs_simple Proofs_bind Proofs_control
  Proofs_more Proofs_macros Spec_errors Proofs_errors Proofs_outcomes Conformance Runs.
Import ListNotations.

(** The hash-map iteration order is some permutation of the entries. *)
Definition permuting (E : env) : Prop := forall seed l, Permutation (e_order E seed l) l.

(** ** C21: macro-free input expands to itself *)

Theorem c21_macro_free : forall E ns s, Forall macro_free ns ->
  exists s', evals E ns s (Ok (ns, s')) /\ x_defs s' = x_defs s /\ x_world s' = x_world s.
Proof. exact (fun E ns s H => evals_macro_free E ns H s). Qed.
Print Assumptions c21_macro_free.

(** There is no other outcome. *)
Theorem c21_only : forall E ns s r, Forall macro_free ns -> evals E ns s r ->
  exists s', r = Ok (ns, s') /\ x_defs s' = x_defs s /\ x_world s' = x_world s.
Proof.
  intros E ns s r M H. destruct (evals_macro_free E ns M s) as [s' [V D]].
  exists s'. rewrite (evals_fun E _ _ _ _ H V). auto.
Qed.
Print Assumptions c21_only.

Definition c21_tree : list node :=
  match parse unescape0 0 (b "(a :k (b 1) ""s"")  x") with Ok t => t | _ => [] end.
Example c21_example : length c21_tree = 2 /\ Forall macro_free c21_tree /\
  yields env1 (b "(a :k (b 1) ""s"")  x") (b "(a :k (b 1) ""s"")  x").
Proof.
  split; [vm_compute; reflexivity|]. split; [|shows].
  vm_compute. repeat constructor.
Qed.

(** ** C22: variables *)

(** The body is expanded at once; [x] stands for the result from then on. *)
Theorem c22_define : forall E a body n s r,
  is_call (b "define") (Sym a :: body) n ->
  eval E n s r <->
  exists q, evals E body (entered n s) q /\
    match q with
    | Ok (vs, s1) => exists s2, r = Ok ([], s2) /\ defines s1 (a_val a) (variable vs) s2
    | _ => fails q r
    end.
Proof. exact eval_define_var. Qed.
Print Assumptions c22_define.

(** Use of a variable: its value is expanded, and takes the place of the use. *)
Theorem c22_use : forall E name st w s body r,
  get name (x_defs s) = Some (variable body) ->
  eval E (Sym (Atom (b "%" ++ name) st w)) s r <->
  exists q, evals E body s q /\
    match q with Ok (ns, s1) => r = Ok (respaced w ns, s1) | _ => fails q r end.
Proof.
  intros E name st w s body r G. rewrite (eval_percent E name st w s body r G).
  split; intros [q [V H]]; exists q; (split; [exact V|]);
    destruct q as [[ns s1]| | | |]; try exact H; destruct V as [V _]; congruence.
Qed.
Print Assumptions c22_use.

(** Whatever happens to other definitions in between: a value without macros
    is returned as it was when it was defined. *)
Theorem c22_eager : forall E a body n s vs s1 s2,
  is_call (b "define") (Sym a :: body) n ->
  evals E body (entered n s) (Ok (vs, s1)) -> Forall macro_free vs ->
  eval E n s (Ok ([], s2)) ->
  forall s3, get (a_val a) (x_defs s3) = get (a_val a) (x_defs s2) ->
  forall st w, exists s4,
    eval E (Sym (Atom (b "%" ++ a_val a) st w)) s3 (Ok (respaced w vs, s4)) /\
    x_defs s4 = x_defs s3 /\ x_world s4 = x_world s3.
Proof.
  intros E a body n s vs s1 s2 C V M D s3 G st w.
  exact (define_then_use E a body n s s2 vs s1 s3 st w C V M D G).
Qed.
Print Assumptions c22_eager.

(** Undefined names, and macros with parameters, are no variables. *)
Theorem c22_undefined : forall E name st w s,
  (get name (x_defs s) = None \/ exists m, get name (x_defs s) = Some m /\ m_params m <> []) ->
  eval E (Sym (Atom (b "%" ++ name) st w)) s (Err (EErr EUndefined st)).
Proof.
  intros E name st w s [H|[m [H P]]]; [apply eval_undefined, H|exact (eval_function E name st w s m H P)].
Qed.
Print Assumptions c22_undefined.

Example c22_example : yields env1
  (b "(%define y old) (%define x a %y) (%define y new) (v %x %y)") (b " (v a old new)").
Proof. shows. Qed.
Example c22_example_undefined : rejects env1 (b "(%define (f a) b) %f") EUndefined /\
  rejects env1 (b "%x") EUndefined.
Proof. split; fails_with. Qed.

(** ** C23: macros with parameters *)

(** Definition: the body is kept as it is. *)
Theorem c23_define : forall E a params body st ew es w n s,
  is_call (b "define") (Lst (Sym a :: params) st ew es w :: body) n ->
  length (rest_names params) <= 1 -> length (kwrest_names params) <= 1 ->
  forall r, eval E n s r <->
  exists s2, r = Ok ([], s2) /\ defines (entered n s) (a_val a) (Macro params body) s2.
Proof.
  intros E a params body st ew es w n s C R K r.
  rewrite (eval_define_fun E a params body st ew es w n s r C). split.
  - intros [[_ [_ H]]|[[H|H] _]]; [exact H| |]; apply Nat.lt_nge in H; contradiction.
  - intros H. left. auto.
Qed.
Print Assumptions c23_define.

(** Call: the arguments are expanded in the scope of the caller, then the
    macro that has the name by then is looked up, its parameters are bound in
    a copy of that scope, and the body is expanded there. *)
Theorem c23_call : forall E, permuting E -> forall name args n s r,
  find_builtin name = None -> is_call name args n ->
  eval E n s r <->
  exists q, evals E (received args) (entered n s) q /\
    match q with
    | Ok (vs, s1) =>
        match get name (x_defs s1) with
        | Some m => called E (node_site n) m vs s1 r
        | None => r = Err (EErr EMacroNotFound (node_site n))
        end
    | _ => fails q r
    end.
Proof. exact eval_user. Qed.
Print Assumptions c23_call.

(** Two parameters [&x], or two [&&x], are rejected at the definition; the
    error points to the second one. *)
Theorem c23_define_error : forall E a params body st ew es w n s r,
  is_call (b "define") (Lst (Sym a :: params) st ew es w :: body) n ->
  1 < length (rest_names params) \/ 1 < length (kwrest_names params) ->
  eval E n s r <-> exists p, excess_rest params p /\ r = Err (EErr EBindMultiRest (node_site p)).
Proof. exact define_excess. Qed.
Print Assumptions c23_define_error.

(** Dynamic scoping: [v] is looked up where [f] is called. *)
Example c23_example : yields env1
  (b "(%define v 1) (%define (f x) (v %v %x)) (%define (g v) (%f v)) (%f a) (%g 2) (%define v 3) (%f b)")
  (b " (v 1 a) (v 2 v) (v 3 b)").
Proof. shows. Qed.
Example c23_example_error : rejects env1 (b "(%define (f &a &b) x)") EBindMultiRest.
Proof. fails_with. Qed.

(** ** C25: binding of arguments *)

Theorem c25_binding : forall E, permuting E -> forall st ps vs s,
  (exists s1 l, bind_list E st ps vs s = Ok s1 /\
     binds_list ps vs l /\ x_defs s1 = assign l (x_defs s) /\ same_effects s s1) \/
  ((forall l, ~ binds_list ps vs l) /\ exists e, bind_list E st ps vs s = Err e).
Proof. exact bind_list_cases. Qed.
Print Assumptions c25_binding.

Theorem c25_pattern : forall E, permuting E -> forall p v s,
  (exists s1 l, bind_node E p v s = Ok s1 /\
     binds p v l /\ x_defs s1 = assign l (x_defs s) /\ same_effects s s1) \/
  ((forall l, ~ binds p v l) /\ exists e, bind_node E p v s = Err e).
Proof. exact bind_node_cases. Qed.
Print Assumptions c25_pattern.

(** The relation assigns exactly the variables of the parameters. *)
Theorem c25_variables : forall ps vs l, binds_list ps vs l ->
  forall k, In k (map fst l) <-> In k (flat_map param_variables ps).
Proof. exact (proj1 (proj2 binds_variables)). Qed.
Print Assumptions c25_variables.

(** So everything else keeps its meaning. *)
Theorem c25_others : forall E, permuting E -> forall st ps vs s s1,
  bind_list E st ps vs s = Ok s1 ->
  forall k, ~ In k (flat_map param_variables ps) -> get k (x_defs s1) = get k (x_defs s).
Proof. exact bind_others. Qed.
Print Assumptions c25_others.

Theorem c25_too_few : forall E, permuting E -> forall st ps vs s,
  length (positionals vs) < length (ordinary ps) -> exists e, bind_list E st ps vs s = Err e.
Proof. exact too_few. Qed.
Print Assumptions c25_too_few.

Theorem c25_too_many : forall E, permuting E -> forall st ps vs s,
  rest_names ps = [] -> length (ordinary ps) < length (positionals vs) ->
  exists e, bind_list E st ps vs s = Err e.
Proof. exact too_many. Qed.
Print Assumptions c25_too_many.

Theorem c25_unknown_keyword : forall E, permuting E -> forall st ps vs s,
  kwrest_names ps = [] -> surplus_keywords ps vs <> [] ->
  exists e, bind_list E st ps vs s = Err e.
Proof. exact unknown_keyword. Qed.
Print Assumptions c25_unknown_keyword.

Example c25_example : yields env1
  (b "(%define (f a (b c) :k d &r &&q) (v %a %b %c %k %r %q)) (%f :z 9 1 (2 3) 4 5) (%f 1 :k 7 (2 3) :y 8)")
  (b " (v 1 2 3 d 4 5 :z 9) (v 1 2 3 7 :y 8)").
Proof. shows. Qed.
Example c25_example_errors :
  rejects env1 (b "(%define (f a b) x) (%f 1)") EBindTooFew /\
  rejects env1 (b "(%define (f a) x) (%f 1 2)") EBindExcess /\
  rejects env1 (b "(%define (f a) x) (%f 1 :k 2)") EBindExcessKeyword /\
  rejects env1 (b "(%define (f (a)) x) (%f 1)") EBindExpectedList.
Proof. runs. Qed.

(** ** C26: %match *)

Theorem c26_match : forall E, permuting E -> forall expr clauses n s r,
  is_call (b "match") (expr :: clauses) n ->
  eval E n s r <->
  exists e q, received (expr :: clauses) = e :: clauses /\ eval E e (entered n s) q /\
    match q with
    | Ok ([v], s1) => matching E v clauses s1 r
    | Ok _ => r = Err (EErr EMatch (node_site e))
    | _ => fails q r
    end.
Proof. exact eval_match. Qed.
Print Assumptions c26_match.

Theorem c26_first : forall E v clauses s ns s',
  matching E v clauses s (Ok (ns, s')) ->
  exists k ps s1,
    (* the first [k] clauses do not match *)
    evals E (flat_map pattern_of (firstn k clauses)) s (Ok (ps, s1)) /\
    length ps = k /\ Forall (fun p => forall l, ~ binds p v l) ps /\
    match nth_error clauses k with
    (* and there is no other *)
    | None => length clauses = k /\ ns = [] /\ s' = s1
    (* or the next does, and its body gives the result *)
    | Some clause => exists pat body p s2 l s3 s4,
        list_of clause = Some (pat :: body) /\ eval E pat s1 (Ok ([p], s2)) /\
        bound E p v (copied s2) s3 l /\ evals E body s3 (Ok (ns, s4)) /\ s' = left_ s2 s4
    end.
Proof. exact matching_first. Qed.
Print Assumptions c26_first.

Example c26_example : yields env1
  (b "(%match (a 1) ((b) B) ((x 2) no) ((x y) %y %x) (z late))") (b " 1 a") /\
  yields env1 (b "(a (%match 1 (2 x)))") (b "(a)").
Proof. split; shows. Qed.
(** A clause that fails half-way leaves no trace. *)
Example c26_example_trace : rejects env1 (b "(%match (a 1) ((x 2) no) (_ %x))") EUndefined.
Proof. fails_with. Qed.

(** ** C27: %ifdef *)

Theorem c27_ifdef : forall E cond yes no a n s r,
  is_call (b "ifdef") (cond :: yes :: no) n ->
  length no <= 1 -> atomic cond = Some a ->
  eval E n s r <->
  exists q,
    match get (a_val a) (x_defs s) with
    | Some _ => eval E yes (entered n s) q
    | None => match no with
              | [alt] => eval E alt (entered n s) q
              | _ => q = Ok ([], entered n s)
              end
    end /\
    match q with
    | Ok ([], s1) => r = Ok ([], s1)
    | Ok (ns, s1) => r = Ok (respaced (leading_ws n) ns, noted n s s1)
    | _ => fails q r
    end.
Proof. exact eval_ifdef_get. Qed.
Print Assumptions c27_ifdef.

(** The branch not taken does not matter. *)
Theorem c27_lazy : forall E cond yes no yes' no' a n n' s r,
  atomic cond = Some a ->
  is_call (b "ifdef") [cond; yes; no] n -> is_call (b "ifdef") [cond; yes'; no'] n' ->
  leading_ws n = leading_ws n' ->
  match get (a_val a) (x_defs s) with Some _ => yes = yes' | None => no = no' end ->
  eval E n s r -> eval E n' s r.
Proof. exact ifdef_lazy_get. Qed.
Print Assumptions c27_lazy.

Theorem c27_bad : forall E args n s r,
  is_call (b "ifdef") args n ->
  (length args < 2 \/ 3 < length args -> eval E n s r <-> r = Err (EErr EIfdef (node_site n))) /\
  (2 <= length args <= 3 -> (forall cond rest, args = cond :: rest -> atomic cond = None) ->
   eval E n s r <-> exists st, r = Err (EErr EIfdef st)
     /\ forall cond rest, args = cond :: rest -> st = node_site cond).
Proof. exact eval_ifdef_bad. Qed.
Print Assumptions c27_bad.

Example c27_example : yields env1
  (b "(%ifdef x %x none) (%define x 1) (%ifdef x %x %y) (%ifdef z %y)") (b "none 1").
Proof. shows. Qed.

(** Macros with parameters and built-in names. *)
Example c27_example_params : yields env1
  (b "(%define (f x) %x) (%ifdef f yes no) (%ifdef include yes no)") (b " yes no").
Proof. shows. Qed.

(** ** C33: %for *)

Theorem c33_for : forall E, permuting E -> forall args n s r,
  is_call (b "for") args n ->
  eval E n s r <->
  match positionals (received args) with
  | p :: Sym i :: Lst items _ _ _ _ :: _ =>
      if beq (a_val i) (b "in") then
        exists q, evals E items (noted n s (entered n s)) q /\
          match q with
          | Ok (vs, s1) => exists q1,
              looping E p (drop_positionals 3 (received args)) vs (copied s1) q1 /\ r = closed s1 q1
          | _ => fails q r
          end
      else refused rules_for n (received args) r
  | _ => refused rules_for n (received args) r
  end.
Proof. exact for_outcome. Qed.
Print Assumptions c33_for.

(** A successful loop: the results of the rounds, in the order of the list. *)
Theorem c33_rounds : forall E p body items s ns s',
  looping E p body items s (Ok (ns, s')) ->
  exists results states, ns = concat results /\
    length results = length items /\ length states = S (length items) /\
    nth_error states 0 = Some s /\ nth_error states (length items) = Some s' /\
    forall i item, nth_error items i = Some item ->
      exists out s1 s2 s3 l,
        nth_error results i = Some out /\ nth_error states i = Some s1 /\
        bound E p item s1 s2 l /\ evals E body s2 (Ok (out, s3)) /\
        nth_error states (S i) = Some s3.
Proof. exact looping_rounds. Qed.
Print Assumptions c33_rounds.

Example c33_example : yields env1 (b "(%for (k v) in ((a 1) (b 2)) (is %k %v))")
  (b " (is a 1) (is b 2)") /\ yields env1 (b "(a (%for x in () %undefined))") (b "(a)").
Proof. split; shows. Qed.
Example c33_example_error : rejects env1 (b "(%for (k v) in ((a 1) (b)) x)") EBindTooFew.
Proof. fails_with. Qed.

(** ** C44: attributes *)

Theorem c44_attribute : forall E k v st w s r,
  eval E (Attr k v st w) s r <->
  exists q, eval E v s q /\
    match q with
    | Ok ([], _) => r = Panic PIndex
    | Ok (x :: ns, s1) => r = Ok (Attr k x st w :: ns, s1)
    | _ => fails q r
    end.
Proof. exact eval_attribute. Qed.
Print Assumptions c44_attribute.

Example c44_example : yields env1 (b "(a :k (%splat (1 2 3)))") (b "(a :k1 2 3)").
Proof. shows. Qed.
(** The defect. *)
Theorem c44_panic_refuted : exists src, panics env1 src PIndex.
Proof. exists (b "(a :k (%define x 1))"). fails_with. Qed.
Print Assumptions c44_panic_refuted.
