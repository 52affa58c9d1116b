(** * Properties of error reports from macros (C57-C59) *)

From Coq Require Import String List Ascii Bool Arith NArith ZArith Permutation.
From Verif Require Import Text Res Ast Env Scope State Bind Numbers Parser
  Spec_args Spec_expand Spec_builtin Spec_bind Spec_control Spec_scope Spec_errors
  Proofs_run Proofs_eval Proofs_args Proofs_builtin Proofs_simple Proofs_bind Proofs_control
  Proofs_more Proofs_extra Proofs_errors Proofs_outcomes Conformance Runs Properties_macros.
From Verif Require Import Args Expander.
Import ListNotations.

(** ** C57: complaints about the arguments of builtin macros *)

(** The error is determined by the first argument against the rules; if there
    is none, one is missing. *)
Theorem c57_arguments : forall rs n ps k st, well_formed rs ->
  arguments rs n ps = Err (EErr k st) <-> complains rs n ps k st.
Proof. exact (fun rs n ps k st W => arguments_err rs W n ps k st). Qed.
Print Assumptions c57_arguments.

(** There is a complaint exactly about arguments that are not accepted ... *)
Theorem c57_total : forall rs n ps, well_formed rs ->
  ~ accepted rs ps <-> exists k st, complains rs n ps k st.
Proof. exact (fun rs n ps W => complains_exists rs W n ps). Qed.
Print Assumptions c57_total.

(** ... and only one. *)
Theorem c57_unique : forall rs n ps k st k' st', well_formed rs ->
  complains rs n ps k st -> complains rs n ps k' st' -> k = k' /\ st = st'.
Proof. exact (fun rs n ps k st k' st' W => complains_unique rs W n ps k st k' st'). Qed.
Print Assumptions c57_unique.

(** It is the outcome of the call, for the macros that check their arguments
    after evaluating them ... *)
Theorem c57_call : forall E name rs args n s vs s1 r,
  In (name, rs) eager_rules -> is_call name args n ->
  evals E (received args) (entered n s) (Ok (vs, s1)) -> ~ accepted rs vs ->
  eval E n s r <-> refused rs n vs r.
Proof. exact eager_refuses. Qed.
Print Assumptions c57_call.

(** ... and for those that check them before. *)
Theorem c57_lazy : forall E name rs args n s r, permuting E ->
  In (name, rs) [(b "for", rules_for); (b "lambda", rules_lambda)] -> is_call name args n ->
  ~ accepted rs (received args) ->
  eval E n s r <-> refused rs n (received args) r.
Proof. exact lazy_refuses. Qed.
Print Assumptions c57_lazy.

Example c57_example :
  (* the first bad argument, although there is a keyword without meaning, too *)
  rejects_at env1 (b "(%join ""-"" a (b) :k 1)") EArgType 13 1 /\
  (* a bad value inside *)
  rejects_at env1 (b "(%sort (2 1) :order up)") EArgValue 20 2 /\
  rejects_at env1 (b "(%reverse (1) (2))") EArgExcess 14 1 /\
  rejects_at env1 (b "(%reverse (1) :k 2)") EArgNamed 14 2 /\
  (* nothing given *)
  rejects_at env1 (b "a (%join)") EArgMissing 2 1 /\
  rejects_at env1 (b "(%get 1)") EArgMissing 6 1 /\
  rejects_at env1 (b "(%for x of (1 2) x)") EArgValue 8 2.
Proof. runs. Qed.
(** The complaint, by the specification. *)
Example c57_example_complains : forall n p q,
  complains rules_reverse n [Lst [] p [] q []; Num (Atom (b "1") p [])] EArgExcess p.
Proof.
  intros n p q. apply (complains_argument _ _ _ [(PInt 1, Lst [] p [] q [])] (PInt 2) (Num (Atom (b "1") p [])) []).
  - reflexivity.
  - constructor; [|constructor]. split.
    + intros r [[<-|[]] _]. cbn. eauto 8.
    + intros N. exfalso. apply (N (mandatory 1 (TList []))). split; left; reflexivity.
  - apply (offends_excess rules_reverse (PInt 2) (Num (Atom (b "1") p [])) 2); [reflexivity| |reflexivity].
    intros r [[<-|[]] [H|[]]]. discriminate.
Qed.

(** ** C58: arguments that do not match the parameters *)

(** The error is one that the specification allows ... *)
Theorem c58_arguments : forall E, permuting E -> forall at_ ps vs s k st,
  bind_list E at_ ps vs s = Err (EErr k st) -> mismatch_args at_ ps vs k st.
Proof. exact (fun E ORDER at_ ps vs s => proj1 (bind_args_blames E ORDER at_ ps) vs s). Qed.
Print Assumptions c58_arguments.

Theorem c58_pattern : forall E, permuting E -> forall p v s k st,
  bind_node E p v s = Err (EErr k st) -> mismatch p v k st.
Proof. exact (fun E ORDER p v s => proj1 (bind_node_blames E ORDER p) v s). Qed.
Print Assumptions c58_pattern.

(** ... and it allows one only, up to the choice between several surplus
    keywords. *)
Theorem c58_unique : forall at_ ps vs k st k' st',
  mismatch_args at_ ps vs k st -> mismatch_args at_ ps vs k' st' ->
  k = k' /\ (k <> EBindExcessKeyword -> st = st').
Proof. exact (mismatch_same env1 env1_order). Qed.
Print Assumptions c58_unique.

(** Arguments and parameters that do not match mismatch in some way. *)
Theorem c58_total : forall at_ ps vs,
  (forall l, ~ binds_list ps vs l) <-> exists k st, mismatch_args at_ ps vs k st.
Proof. exact (mismatch_exists env1 env1_order). Qed.
Print Assumptions c58_total.

Theorem c58_pattern_total : forall p v,
  (forall l, ~ binds p v l) <-> exists k st, mismatch p v k st.
Proof. exact (mismatch_pattern_exists env1 env1_order). Qed.
Print Assumptions c58_pattern_total.

(** The call of a user macro with such arguments. *)
Theorem c58_call : forall E, permuting E -> forall name args n s vs s1 m r,
  find_builtin name = None -> is_call name args n ->
  evals E (received args) (entered n s) (Ok (vs, s1)) -> get name (x_defs s1) = Some m ->
  (forall l, ~ binds_list (m_params m) vs l) ->
  eval E n s r ->
  exists k st, r = Err (EErr k st) /\ mismatch_args (node_site n) (m_params m) vs k st.
Proof. exact user_mismatched. Qed.
Print Assumptions c58_call.

(** A lambda: more than one rest parameter of a kind is an error at the second
    one. *)
Theorem c58_lambda : forall E args n s r,
  is_call (b "lambda") args n ->
  eval E n s r <->
  match positionals (received args) with
  | head :: _ =>
      let name := b "__lambda" ++ uuid E s (node_site n) in
      let made params :=
        (length (rest_names params) <= 1 /\ length (kwrest_names params) <= 1 /\
         exists s1, r = Ok ([Sym (in_place n name)], s1) /\
           defines (noted n s (entered n s)) name (Macro params (drop_positionals 1 (received args))) s1) \/
        (exists p, excess_rest params p /\ r = Err (EErr EBindMultiRest (node_site p))) in
      match head with
      | Lst params _ _ _ _ => made params
      | Sym _ => made [head]
      | _ => r = Err (EErr ELambda (node_site head))
      end
  | [] => refused rules_lambda n (received args) r
  end.
Proof. exact lambda_outcome. Qed.
Print Assumptions c58_lambda.

Example c58_example :
  rejects_at env1 (b "(%define (f a b) x) (%f 1)") EBindTooFew 20 1 /\
  rejects_at env1 (b "(%define (f a) x) (%f 1 2 3)") EBindExcess 26 1 /\
  rejects_at env1 (b "(%define (f a) x) (%f 1 :k 2)") EBindExcessKeyword 24 2 /\
  rejects_at env1 (b "(%define (f a (c)) x) (%f 1 2)") EBindExpectedList 28 1 /\
  rejects_at env1 (b "(%define (f (a (b 7))) x) (%f (1 (2 8)))") EBindPattern 36 1 /\
  rejects_at env1 (b "(%define (f ((a b) c)) x) (%f ((1) 2))") EBindTooFew 31 1 /\
  rejects_at env1 (b "(%define (f &a b &c) x)") EBindMultiRest 17 2 /\
  rejects_at env1 (b "(%lambda (&&a &&b) x)") EBindMultiRest 14 3 /\
  rejects_at env1 (b "(%lambda 1 x)") ELambda 9 1.
Proof. runs. Qed.

(** ** C59: %log, %os/env and %format *)

(** [%log] adds one line to the end of the log: its arguments, separated by
    spaces. *)
Theorem c59_log : forall E args n s r,
  is_call (b "log") args n ->
  eval E n s r <->
  exists q, evals E (received args) (entered n s) q /\
    match q with
    | Ok (vs, s1) =>
        match texts vs with
        | Some words => exists s2, logged (node_site n) (separated (b " ") words) (noted n s s1) s2 /\
                          r = Ok ([], s2)
        | None => r = Err (EErr ELog (node_site n))
        end
    | _ => fails q r
    end.
Proof. exact log_outcome. Qed.
Print Assumptions c59_log.

Theorem c59_env : forall E args n s r,
  is_call (b "os/env") args n ->
  eval E n s r <->
  exists q, evals E (received args) (entered n s) q /\
    match q with
    | Ok ([v], s1) =>
        match atomic v with
        | Some a =>
            match e_getenv E (a_val a) with
            | Some text => r = Ok ([Str (Atom text (a_site a) (a_ws a))], s1)
            | None => r = Err (EErr EEnv (a_site a))
            end
        | None => r = Err (EErr EEnv (node_site v))
        end
    | Ok _ => r = Err (EErr EEnv (node_site n))
    | _ => fails q r
    end.
Proof. exact env_outcome. Qed.
Print Assumptions c59_env.

Theorem c59_format : forall E args n s r,
  is_call (b "format") args n ->
  eval E n s r <->
  exists q, evals E (received args) (entered n s) q /\
    match q with
    | Ok (Str fmt :: rest, s1) =>
        if e_template E (a_val fmt) then
          (exists l, Forall2 format_value rest l /\
             match e_format E (a_val fmt) l with
             | Some text => r = Ok ([Str (in_place n text)], noted n s s1)
             | None => r = Err (EErr EFormat (a_site fmt))
             end) \/
          (exists v, first_without (fun v => literal (meant v)) rest v /\
             r = Err (EErr EFormat (node_site (meant v))))
        else r = Err (EErr EFormat (a_site fmt))
    | Ok (v :: _, _) => r = Err (EErr EFormat (node_site v))
    | Ok ([], _) => r = Err (EErr EFormat (node_site n))
    | _ => fails q r
    end.
Proof. exact format_outcome. Qed.
Print Assumptions c59_format.

Example c59_example :
  logs env1 (b "(%log a b) (%log (%concat c d)) (%log)") [b "a b"; b "cd"; b ""] /\
  rejects_at env1 (b "(%log a (b))") ELog 0 1 /\
  rejects_at env1 (b "(%os/env)") EEnv 0 1 /\
  rejects_at env1 (b "(%os/env (a))") EEnv 9 1 /\
  rejects_at env1 (b "(%format)") EFormat 0 1 /\
  rejects_at env1 (b "(%format x)") EFormat 9 1.
Proof. runs. Qed.
