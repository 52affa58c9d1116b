(** * Specification: order of hash maps, and outcomes that are alike *)

From Coq Require Import String List Ascii Bool Arith Permutation.
From Verif Require Import Text Res Ast Env Scope State Expander Spec_args Spec_expand Spec_bind.
Import ListNotations.

(** The same world, but for the order of hash maps. *)
Definition with_order (o : nat -> list bytes -> list bytes) (E : env) : env := {|
  e_order := o; e_unescape := e_unescape E; e_read := e_read E; e_includes := e_includes E;
  e_getenv := e_getenv E; e_hash := e_hash E; e_float := e_float E; e_fixed := e_fixed E;
  e_local := e_local E; e_time_ok := e_time_ok E; e_date := e_date E; e_parse_date := e_parse_date E;
  e_parse_naive := e_parse_naive E; e_template := e_template E; e_format := e_format E;
  e_html := e_html E; e_front := e_front E; e_yaml := e_yaml E; e_toml := e_toml E; e_glob := e_glob E;
  e_unsorted := e_unsorted E; e_unlisted := e_unlisted E
|}.

(** Matching pattern [p] with value [v] means matching the parameter list
    [ps] with the arguments [vs]. *)
Inductive opens : node -> node -> list node -> list node -> Prop :=
| opens_list ps vs st ew es w st' ew' es' w' :
    opens (Lst ps st ew es w) (Lst vs st' ew' es' w') ps vs
| opens_attr k p st w v st' w' ps vs :
    opens p v ps vs -> opens (Attr k p st w) (Attr k v st' w') ps vs.
(** On the way, [qs] has to be matched with [ws]. *)
Inductive meets : list node -> list node -> list node -> list node -> Prop :=
| meets_here ps vs : meets ps vs ps vs
| meets_inside ps vs i p v ps' vs' qs ws :
    nth_error (ordinary ps) i = Some p -> nth_error (positionals vs) i = Some v ->
    opens p v ps' vs' -> meets ps' vs' qs ws -> meets ps vs qs ws.

(** No &&-parameter is to receive more than one keyword argument. *)
Definition undisputed (ps vs : list node) : Prop :=
  forall qs ws, meets ps vs qs ws -> kwrest_names qs = [] \/ length (surplus_keywords qs ws) <= 1.
Definition undisputed_pattern (p v : node) : Prop :=
  forall ps vs, opens p v ps vs -> undisputed ps vs.

(** States that agree in everything but memory. *)
Definition same_contents (s s' : state) : Prop :=
  x_defs s = x_defs s' /\ g_log (x_world s) = g_log (x_world s') /\
  g_sources (x_world s) = g_sources (x_world s') /\ g_freed (x_world s) = g_freed (x_world s').

(** Outcomes that differ in the memory of the final state or the place of an
    error only. *)
Definition alike (r r' : out) : Prop :=
  match r, r' with
  | Ok (ns, s), Ok (ns', s') => ns = ns' /\ same_contents s s'
  | Err (EErr k _), Err (EErr k' _) => k = k'
  | Panic p, Panic p' => p = p'
  | Hang, Hang => True
  | _, _ => False
  end.
