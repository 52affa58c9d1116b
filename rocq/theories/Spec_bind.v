(** * Specification of pattern binding

    What a pattern matches and which variables it assigns, independent of the
    order in which the code goes about it. *)

From Coq Require Import String List Ascii Bool Arith Permutation.
From Verif Require Import Text Res Ast Scope State Spec_args.
Import ListNotations.

(** Assignments, to be made in order. *)
Definition assignments := list (bytes * list node).
Definition assign (l : assignments) (d : scope) : scope :=
  fold_left (fun d '(k, body) => put k (variable body) d) l d.

(** Kinds of parameter. *)
Definition rest_name (n : node) : option bytes :=
  match n with
  | Sym a => match a_val a with
             | "&"%char :: "&"%char :: _ => None
             | "&"%char :: name => Some name
             | _ => None
             end
  | _ => None
  end.
Definition kwrest_name (n : node) : option bytes :=
  match n with
  | Sym a => match a_val a with
             | "&"%char :: "&"%char :: name => Some name
             | _ => None
             end
  | _ => None
  end.
Definition ordinary (pats : list node) : list node :=
  filter (fun n => negb (is_attribute n) && negb (is_some (rest_name n))
                   && negb (is_some (kwrest_name n))) pats.
Definition rest_names (pats : list node) : list bytes :=
  flat_map (fun n => match rest_name n with Some x => [x] | None => [] end) pats.
Definition kwrest_names (pats : list node) : list bytes :=
  flat_map (fun n => match kwrest_name n with Some x => [x] | None => [] end) pats.

(** The keyword nodes, without those whose keyword occurs again later. *)
Fixpoint final_attrs (ns : list node) : list node :=
  match ns with
  | [] => []
  | Attr k v st w :: ns' =>
      if is_some (keyword_value k ns') then final_attrs ns'
      else Attr k v st w :: final_attrs ns'
  | _ :: ns' => final_attrs ns'
  end.

(** The variable made for a keyword parameter: the argument's value if there
    is one, or else the default. *)
Definition keyword_binding (vals : list node) (param : node) : bytes * list node :=
  match param with
  | Attr k d _ _ => (k, [match keyword_value k vals with Some v => v | None => d end])
  | _ => ([], [])
  end.

(** Keyword arguments without a parameter. *)
Definition surplus_keywords (pats vals : list node) : list node :=
  filter (fun n => match n with
                   | Attr k _ _ _ => negb (is_some (keyword_value k pats))
                   | _ => false
                   end) (final_attrs vals).

(** [one names given l]: the assignment [l] that gives a rest parameter its
    nodes; without such a parameter there must be none. *)
Inductive one_rest : list bytes -> list node -> assignments -> Prop :=
| rest_none : one_rest [] [] []
| rest_some name ns : one_rest [name] ns [(name, ns)].

Inductive binds : node -> node -> assignments -> Prop :=
| binds_sym a v : binds (Sym a) v [(a_val a, [v])]
| binds_num a v : a_val a = a_val v -> binds (Num a) (Num v) []
| binds_str a v : a_val a = a_val v -> binds (Str a) (Str v) []
| binds_str_raw a v : a_val a = a_val v -> binds (Str a) (Raw v) []
| binds_raw a v : a_val a = a_val v -> binds (Raw a) (Raw v) []
| binds_raw_str a v : a_val a = a_val v -> binds (Raw a) (Str v) []
| binds_attr k p st w v st' w' l : binds p v l -> binds (Attr k p st w) (Attr k v st' w') l
| binds_lst pats vals st ew es w st' ew' es' w' l :
    binds_list pats vals l -> binds (Lst pats st ew es w) (Lst vals st' ew' es' w') l
with binds_list : list node -> list node -> assignments -> Prop :=
| binds_params pats vals l1 l2 l3 l4 kwrest :
    (* positional arguments, in order *)
    binds_each (ordinary pats) (firstn (length (ordinary pats)) (positionals vals)) l1 ->
    (* the surplus goes to &rest *)
    one_rest (rest_names pats) (skipn (length (ordinary pats)) (positionals vals)) l2 ->
    (* one variable for each keyword parameter *)
    Permutation l3 (map (keyword_binding vals) (final_attrs pats)) ->
    (* surplus keywords go to &&rest, in some order *)
    Permutation kwrest (surplus_keywords pats vals) ->
    one_rest (kwrest_names pats) kwrest l4 ->
    binds_list pats vals (l1 ++ l2 ++ l3 ++ l4)
with binds_each : list node -> list node -> assignments -> Prop :=
| each_nil : binds_each [] [] []
| each_cons p ps v vs l l' :
    binds p v l -> binds_each ps vs l' -> binds_each (p :: ps) (v :: vs) (l ++ l').

Scheme binds_mut := Induction for binds Sort Prop
  with binds_list_mut := Induction for binds_list Sort Prop
  with binds_each_mut := Induction for binds_each Sort Prop.
Combined Scheme binds_mutind from binds_mut, binds_list_mut, binds_each_mut.

(** States that differ in definitions and the hash-map bookkeeping only. *)
Definition same_effects (s s' : state) : Prop :=
  x_vec s' = x_vec s /\ g_log (x_world s') = g_log (x_world s) /\
  g_sources (x_world s') = g_sources (x_world s) /\
  g_freed (x_world s') = g_freed (x_world s) /\
  g_dangling (x_world s') = g_dangling (x_world s).

(** The variables of a pattern. *)
Fixpoint variables (p : node) : list bytes :=
  match p with
  | Sym a => [a_val a]
  | Num _ | Str _ | Raw _ => []
  | Attr _ q _ _ => variables q
  | Lst pats _ _ _ _ =>
      flat_map (fun q =>
        match rest_name q, kwrest_name q with
        | Some x, _ => [x]
        | None, Some x => [x]
        | None, None => match q with Attr k _ _ _ => [k] | _ => variables q end
        end) pats
  end.
(** The variables of a parameter in a parameter list. *)
Definition param_variables (q : node) : list bytes :=
  match rest_name q, kwrest_name q with
  | Some x, _ => [x]
  | None, Some x => [x]
  | None, None => match q with Attr k _ _ _ => [k] | _ => variables q end
  end.
