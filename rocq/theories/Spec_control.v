(** * Vocabulary for statements about control macros

    [%match], [%for], [%map], [%filter], [%sort], [%namespace] and calls of
    user macros. *)

From Coq Require Import String List Ascii Bool Arith Permutation.
From Verif Require Import Text Res Ast Env Scope State Bind Expander Spec_args Spec_expand Spec_bind.
Import ListNotations.

(** Matching value [v] with pattern [p] in state [s] gives [s1], which differs
    in the assignments [l]. *)
Definition bound (E : env) (p v : node) (s s1 : state) (l : assignments) : Prop :=
  bind_node E p v s = Ok s1 /\
  binds p v l /\ x_defs s1 = assign l (x_defs s) /\ same_effects s s1.

(** The same for an argument list; [st] is the site named in errors. *)
Definition bound_list (E : env) (st : site) (ps vs : list node) (s s1 : state) (l : assignments)
  : Prop :=
  bind_list E st ps vs s = Ok s1 /\
  binds_list ps vs l /\ x_defs s1 = assign l (x_defs s) /\ same_effects s s1.

(** Outcome of adding to output [xs] what [q] gives. *)
Definition followed (xs : list node) (q : out) : out :=
  match q with
  | Ok (ys, s) => Ok (xs ++ ys, s)
  | Err e => Err e | Panic p => Panic p | Hang => Hang | OutOfFuel => OutOfFuel
  end.
(** Outcome of leaving a subcontext of [s]. *)
Definition closed (s : state) (q : out) : out :=
  match q with
  | Ok (ns, s1) => Ok (ns, left_ s s1)
  | Err e => Err e | Panic p => Panic p | Hang => Hang | OutOfFuel => OutOfFuel
  end.

(** The call of user macro [m] with arguments [vs]. *)
Inductive called (E : env) (st : site) (m : macro) (vs : list node) (s : state) : out -> Prop :=
| called_body s1 l q :
    bound_list E st (m_params m) vs (copied s) s1 l ->
    evals E (m_body m) s1 q -> called E st m vs s (closed s q)
| called_mismatch e :
    (forall l, ~ binds_list (m_params m) vs l) ->
    bind_list E st (m_params m) vs (copied s) = Err e -> called E st m vs s (Err e).

(** The clauses of [%match], tried in order on value [v]. *)
Inductive matching (E : env) (v : node) : list node -> state -> out -> Prop :=
| matching_none s : matching E v [] s (Ok ([], s))
| matching_skip clause pat body clauses s p s1 r :
    list_of clause = Some (pat :: body) ->
    eval E pat s (Ok ([p], s1)) ->
    (forall l, ~ binds p v l) ->
    matching E v clauses s1 r ->
    matching E v (clause :: clauses) s r
| matching_take clause pat body clauses s p s1 s2 l q :
    list_of clause = Some (pat :: body) ->
    eval E pat s (Ok ([p], s1)) ->
    bound E p v (copied s1) s2 l ->
    evals E body s2 q ->
    matching E v (clause :: clauses) s (closed s1 q)
| matching_pattern clause pat body clauses s q r :
    list_of clause = Some (pat :: body) -> eval E pat s q -> fails q r ->
    matching E v (clause :: clauses) s r
| matching_many clause pat body clauses s ns s1 :
    list_of clause = Some (pat :: body) -> eval E pat s (Ok (ns, s1)) -> length ns <> 1 ->
    matching E v (clause :: clauses) s (Err (EErr EMatch (node_site pat)))
| matching_bad clause clauses s :
    list_of clause = None \/ list_of clause = Some [] ->
    matching E v (clause :: clauses) s (Err (EErr EMatch (node_site clause))).

(** The rounds of [%for]. *)
Inductive looping (E : env) (p : node) (body : list node) : list node -> state -> out -> Prop :=
| loop_done s : looping E p body [] s (Ok ([], s))
| loop_round i items s s1 l xs s2 q :
    bound E p i s s1 l -> evals E body s1 (Ok (xs, s2)) -> looping E p body items s2 q ->
    looping E p body (i :: items) s (followed xs q)
| loop_body i items s s1 l q r :
    bound E p i s s1 l -> evals E body s1 q -> fails q r ->
    looping E p body (i :: items) s r
| loop_mismatch i items s e :
    (forall l, ~ binds p i l) -> bind_node E p i s = Err e ->
    looping E p body (i :: items) s (Err e).

(** Applying macro [name] to each node in turn; [drop] tells which results
    to leave out. *)
Inductive applying (E : env) (name : bytes) (c : call) (drop : list node -> bool)
  : list node -> state -> out -> Prop :=
| applying_done s : applying E name c drop [] s (Ok ([], s))
| applying_round n ns s xs s1 q :
    invokes E name c [n] s (Ok (xs, s1)) -> applying E name c drop ns s1 q ->
    applying E name c drop (n :: ns) s (followed (if drop xs then [] else xs) q)
| applying_fails n ns s q r :
    invokes E name c [n] s q -> fails q r -> applying E name c drop (n :: ns) s r.
Definition drop_none (xs : list node) : bool := false.
Definition is_unit (xs : list node) : bool :=
  match xs with [Lst [] _ _ _ _] => true | _ => false end.

(** The arguments without the first [k] that are not keyword arguments. *)
Fixpoint drop_positionals (k : nat) (ps : list node) : list node :=
  match k, ps with
  | 0, _ => ps
  | _, [] => []
  | S k', p :: ps' =>
      match p with
      | Attr _ _ _ _ => p :: drop_positionals k ps'
      | _ => drop_positionals k' ps'
      end
  end.

(** The pattern of a clause of [%match]. *)
Definition pattern_of (clause : node) : list node :=
  match list_of clause with Some (p :: _) => [p] | _ => [] end.
