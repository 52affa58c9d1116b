(** * Specification of complaints

    Which error a badly called macro gives, and where it points: said by
    looking for the first thing that is wrong, independent of the way the code
    goes about it. *)

From Coq Require Import String List Ascii Bool Arith Permutation.
From Verif Require Import Text Res Ast Env Scope State Expander Spec_args Spec_bind Spec_expand Spec_builtin
  Spec_scope.
From Verif Require Import Args.
Import ListNotations.

(** ** Arguments of builtin macros *)

(** The kinds of node a type admits, values aside. *)
Definition kind_fits (t : argtype) (n : node) : Prop :=
  match t, n with
  | TAny _, _ => True
  | TLiteral _, (Sym _ | Num _ | Str _ | Raw _) => True
  | TString _, (Str _ | Raw _) => True
  | TSymbol _, Sym _ => True
  | TNumber _, Num _ => True
  | TSymbolic _, (Sym _ | Num _) => True
  | TList _, Lst _ _ _ _ _ => True
  | _, _ => False
  end.
(** The values a type admits. *)
Definition values (t : argtype) : list pred :=
  match t with
  | TLiteral ps | TString ps | TSymbol ps | TNumber ps | TSymbolic ps | TAny ps => ps
  | TList _ => []
  end.

(** What is wrong with a node, and where: the innermost, leftmost node to
    blame. *)
Inductive unfit : argtype -> node -> ekind -> site -> Prop :=
| unfit_attribute t n :
    is_attribute n = true -> ~ kind_fits t n -> unfit t n EArgAttribute (node_site n)
| unfit_kind t n :
    is_attribute n = false -> ~ kind_fits t n -> unfit t n EArgType (node_site n)
| unfit_value t n :
    kind_fits t n -> ~ allowed (values t) n -> unfit t n EArgValue (node_site n)
| unfit_length ts ns st ew es w :
    ts <> [] -> length ns <> length ts -> unfit (TList ts) (Lst ns st ew es w) EArgType st
| unfit_item ts ns st ew es w i t n k bad :
    length ns = length ts ->
    nth_error ts i = Some t -> nth_error ns i = Some n ->
    (forall j t' n', j < i -> nth_error ts j = Some t' -> nth_error ns j = Some n' -> fits t' n') ->
    unfit t n k bad -> unfit (TList ts) (Lst ns st ew es w) k bad.

(** The argument [p] at [pos] obeys the rules ... *)
Definition obeys_rules (rs : rules) (x : argpos * node) : Prop :=
  let '(pos, p) := x in
  (forall r, rule_for rs pos r -> fits (argtype_of (r_arg r)) (meant p)) /\
  ((forall r, ~ rule_for rs pos r) -> exists t, trailing rs = Some t /\ fits t p).
(** ... or there is something wrong with it. *)
Inductive offends (rs : rules) (pos : argpos) (p : node) : ekind -> site -> Prop :=
| offends_rule r k st :
    rule_for rs pos r -> unfit (argtype_of (r_arg r)) (meant p) k st -> offends rs pos p k st
| offends_trailing t k st :
    (forall r, ~ rule_for rs pos r) -> trailing rs = Some t -> unfit t p k st ->
    offends rs pos p k st
| offends_keyword kw :
    pos = PStr kw -> (forall r, ~ rule_for rs pos r) -> trailing rs = None ->
    offends rs pos p EArgNamed (node_site p)
| offends_excess i :
    pos = PInt i -> (forall r, ~ rule_for rs pos r) -> trailing rs = None ->
    offends rs pos p EArgExcess (node_site p).

(** Mandatory rules, and arguments that fall under one. *)
Definition demanded (rs : rules) : nat :=
  length (filter (fun r => is_mandatory (r_arg r)) (patterns rs)).
Definition supplied (rs : rules) (ps : list node) : nat :=
  length (filter (fun '(pos, _) => existsb (argpos_eqb pos)
                    (flat_map r_pos (filter (fun r => is_mandatory (r_arg r)) (patterns rs))))
                 (slots 0 ps)).

(** The complaint about calling a macro with rules [rs] with arguments [ps];
    [n] is the call. *)
Inductive complains (rs : rules) (n : node) (ps : list node) : ekind -> site -> Prop :=
(** The first argument that is wrong is reported ... *)
| complains_argument before pos p after k st :
    slots 0 ps = before ++ (pos, p) :: after ->
    Forall (obeys_rules rs) before -> offends rs pos p k st -> complains rs n ps k st
(** ... or else that one is missing: at the last argument if there are too
    few, and at the call if there are enough of the wrong ones. *)
| complains_few pos r t st :
    Forall (obeys_rules rs) (slots 0 ps) ->
    rule_for rs pos r -> r_arg r = Mandatory t -> given pos ps = None ->
    supplied rs ps < demanded rs -> st = node_site (last ps n) ->
    complains rs n ps EArgMissing st
| complains_missing pos r t :
    Forall (obeys_rules rs) (slots 0 ps) ->
    rule_for rs pos r -> r_arg r = Mandatory t -> given pos ps = None ->
    demanded rs <= supplied rs ps ->
    complains rs n ps EArgMissing (node_site n).

(** ** Arguments of user macros, and patterns *)

Definition is_ordinary (p : node) : Prop :=
  is_attribute p = false /\ rest_name p = None /\ kwrest_name p = None.

(** Value [v] does not match pattern [p], because of what is at [st]. *)
Inductive mismatch : node -> node -> ekind -> site -> Prop :=
| mismatch_list pats st ew es w v :
    list_of v = None -> mismatch (Lst pats st ew es w) v EBindExpectedList (node_site v)
| mismatch_inside pats st ew es w vals st' ew' es' w' k bad :
    mismatch_args st' pats vals k bad ->
    mismatch (Lst pats st ew es w) (Lst vals st' ew' es' w') k bad
| mismatch_keyword key p st w v :
    (forall v' st' w', v <> Attr key v' st' w') ->
    mismatch (Attr key p st w) v EBindPattern (node_site v)
| mismatch_attr key p st w v st' w' k bad :
    mismatch p v k bad -> mismatch (Attr key p st w) (Attr key v st' w') k bad
| mismatch_number a v :
    (forall x, v = Num x -> a_val x <> a_val a) -> mismatch (Num a) v EBindPattern (node_site v)
| mismatch_string a v :
    (forall x, v = Str x \/ v = Raw x -> a_val x <> a_val a) ->
    mismatch (Str a) v EBindPattern (node_site v)
| mismatch_raw a v :
    (forall x, v = Str x \/ v = Raw x -> a_val x <> a_val a) ->
    mismatch (Raw a) v EBindPattern (node_site v)
(** The arguments [vals], given at [st], do not match the parameters. *)
with mismatch_args : site -> list node -> list node -> ekind -> site -> Prop :=
(** The first bad parameter is reported ... *)
| mismatch_param st pats vals before p after l k bad :
    pats = before ++ p :: after ->
    binds_each (ordinary before) (firstn (length (ordinary before)) (positionals vals)) l ->
    length (rest_names before) <= 1 -> length (kwrest_names before) <= 1 ->
    mismatch_at st p (skipn (length (ordinary before)) (positionals vals))
                (rest_names before) (kwrest_names before) k bad ->
    mismatch_args st pats vals k bad
(** ... or else the last of too many arguments ... *)
| mismatch_excess st pats vals l v vs :
    binds_each (ordinary pats) (firstn (length (ordinary pats)) (positionals vals)) l ->
    length (kwrest_names pats) <= 1 -> rest_names pats = [] ->
    skipn (length (ordinary pats)) (positionals vals) = vs ++ [v] ->
    mismatch_args st pats vals EBindExcess (node_site v)
(** ... or else any of the surplus keywords. *)
| mismatch_surplus st pats vals l l2 v :
    binds_each (ordinary pats) (firstn (length (ordinary pats)) (positionals vals)) l ->
    one_rest (rest_names pats) (skipn (length (ordinary pats)) (positionals vals)) l2 ->
    kwrest_names pats = [] -> In v (surplus_keywords pats vals) ->
    mismatch_args st pats vals EBindExcessKeyword (node_site v)
(** Parameter [p], when [vals] are left of the positional arguments and the
    rest parameters [rests] and [kwrests] have been seen. *)
with mismatch_at : site -> node -> list node -> list bytes -> list bytes -> ekind -> site -> Prop :=
| mismatch_rest st p vals rests kwrests :
    rest_name p <> None -> rests <> [] ->
    mismatch_at st p vals rests kwrests EBindMultiRest (node_site p)
| mismatch_kwrest st p vals rests kwrests :
    kwrest_name p <> None -> kwrests <> [] ->
    mismatch_at st p vals rests kwrests EBindMultiRest (node_site p)
| mismatch_few st p rests kwrests :
    is_ordinary p -> mismatch_at st p [] rests kwrests EBindTooFew st
| mismatch_value st p v vals rests kwrests k bad :
    is_ordinary p -> mismatch p v k bad -> mismatch_at st p (v :: vals) rests kwrests k bad.

Scheme mismatch_mut := Induction for mismatch Sort Prop
  with mismatch_args_mut := Induction for mismatch_args Sort Prop
  with mismatch_at_mut := Induction for mismatch_at Sort Prop.
Combined Scheme mismatch_mutind from mismatch_mut, mismatch_args_mut, mismatch_at_mut.

(** ** Outcomes of macros *)

(** [r] is the complaint about the arguments [vs] of the call [n]. *)
Definition refused (rs : rules) (n : node) (vs : list node) {A} (r : res A) : Prop :=
  exists k st, r = Err (EErr k st) /\ complains rs n vs k st.

(** [n] is the first of [ns] without the property [P]. *)
Definition first_without (P : node -> Prop) (ns : list node) (n : node) : Prop :=
  exists before after, ns = before ++ n :: after /\ Forall P before /\ ~ P n.

(** The path [items] from [v] leads to [m] and no further. *)
Definition stuck (items : list bytes) (v m : node) : Prop :=
  exists before item after, items = before ++ item :: after /\ reaches before v m /\
    forall m', ~ step item m m'.

(** The second parameter [&x] is in excess or else the second [&&x]. *)
Definition excess_rest (params : list node) (p : node) : Prop :=
  exists before after, params = before ++ p :: after /\
    ((rest_name p <> None /\ length (rest_names before) = 1) \/
     (length (rest_names params) <= 1 /\ kwrest_name p <> None /\ length (kwrest_names before) = 1)).

(** What is wrong with the options of [%namespace]: a keyword other than
    [separator], or a separator that is no text. *)
Definition bad_option (ns : list node) (st : site) : Prop :=
  exists n, first_without (fun n => forall k v st w, n = Attr k v st w -> is_separator k v)
              (front_keywords ns) n /\
    match n with
    | Attr k v st' _ => st = if beq k (b "separator") then node_site v else st'
    | _ => False
    end.

(** The arguments of a format string: keyword, if any, and text. *)
Definition format_value (n : node) (x : option bytes * bytes) : Prop :=
  exists a, atomic (meant n) = Some a /\
    x = (match n with Attr k _ _ _ => Some k | _ => None end, a_val a).

(** [s'] is [s] with one more line in the log. *)
Definition logged (st : site) (text : bytes) (s s' : state) : Prop :=
  g_log (x_world s') = g_log (x_world s) ++ [(st, text)] /\
  x_defs s' = x_defs s /\ x_vec s' = x_vec s /\
  g_seed (x_world s') = g_seed (x_world s) /\ g_ordered (x_world s') = g_ordered (x_world s) /\
  g_sources (x_world s') = g_sources (x_world s) /\ g_freed (x_world s') = g_freed (x_world s) /\
  g_dangling (x_world s') = g_dangling (x_world s).
