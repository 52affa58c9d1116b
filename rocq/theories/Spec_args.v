(** * Specification of macro argument checking *)

From Coq Require Import List Ascii Bool Arith.
From Verif Require Import Text Res Ast Args.
Import ListNotations.

(** One of the allowed values, if there is a restriction. *)
Definition satisfied (p : pred) (n : node) : Prop :=
  match p with
  | Exactly v => exists a, atomic n = Some a /\ a_val a = v
  | Matching r => exists a, atomic n = Some a /\ r (a_val a) = true
  | Satisfying t => t n = true
  end.
Definition allowed (ps : list pred) (n : node) : Prop :=
  ps = [] \/ exists p, In p ps /\ satisfied p n.

(** The node has the declared type and an allowed value. *)
Fixpoint fits (t : argtype) (n : node) {struct t} : Prop :=
  match t with
  | TLiteral ps => (exists a, n = Sym a \/ n = Num a \/ n = Str a \/ n = Raw a) /\ allowed ps n
  | TString ps => (exists a, n = Str a \/ n = Raw a) /\ allowed ps n
  | TSymbol ps => (exists a, n = Sym a) /\ allowed ps n
  | TNumber ps => (exists a, n = Num a) /\ allowed ps n
  | TSymbolic ps => (exists a, n = Sym a \/ n = Num a) /\ allowed ps n
  | TAny ps => allowed ps n
  | TList ts =>
      exists ns st ew es w, n = Lst ns st ew es w /\
        (ts = [] \/
         (fix each (ts : list argtype) (ns : list node) : Prop :=
            match ts, ns with
            | [], [] => True
            | t :: ts', m :: ns' => fits t m /\ each ts' ns'
            | _, _ => False
            end) ts ns)
  end.

(** Keyword arguments are addressed by their keyword; the others by their
    number, counted from 1 and not counting keyword arguments. *)
Fixpoint slots (count : nat) (ps : list node) : list (argpos * node) :=
  match ps with
  | [] => []
  | p :: ps' =>
      match p with
      | Attr k _ _ _ => (PStr k, p) :: slots count ps'
      | _ => (PInt (S count), p) :: slots (S count) ps'
      end
  end.
(** What an argument stands for: the value in the case of keywords. *)
Definition meant (p : node) : node := match p with Attr _ v _ _ => v | _ => p end.

Definition positionals (ps : list node) : list node :=
  filter (fun p => negb (is_attribute p)) ps.

(** The value of the last argument with the keyword. *)
Fixpoint keyword_value (k : bytes) (ps : list node) : option node :=
  match ps with
  | [] => None
  | p :: ps' =>
      match keyword_value k ps', p with
      | Some v, _ => Some v
      | None, Attr k' v _ _ => if beq k k' then Some v else None
      | None, _ => None
      end
  end.

(** The argument given for a position. *)
Definition given (pos : argpos) (ps : list node) : option node :=
  match pos with
  | PInt 0 => None
  | PInt (S i) => nth_error (positionals ps) i
  | PStr k => keyword_value k ps
  end.

(** The rule for a position. *)
Definition rule_for (rs : rules) (pos : argpos) (r : rule) : Prop :=
  In r (patterns rs) /\ In pos (r_pos r).

(** Tables in which no position has two rules. *)
Definition well_formed (rs : rules) : Prop :=
  NoDup (flat_map r_pos (patterns rs)) /\ Forall (fun r => r_pos r <> []) (patterns rs).

(** The arguments obey the rules. *)
Definition accepted (rs : rules) (ps : list node) : Prop :=
  (forall pos p r, In (pos, p) (slots 0 ps) -> rule_for rs pos r ->
     fits (argtype_of (r_arg r)) (meant p)) /\
  (forall pos p, In (pos, p) (slots 0 ps) -> (forall r, ~ rule_for rs pos r) ->
     exists t, trailing rs = Some t /\ fits t p) /\
  (forall pos r t, rule_for rs pos r -> r_arg r = Mandatory t -> given pos ps <> None).

(** Arguments without a rule, in order. *)
Definition has_rule (rs : rules) (pos : argpos) : bool :=
  existsb (argpos_eqb pos) (flat_map r_pos (patterns rs)).
Definition surplus (rs : rules) (ps : list node) : list node :=
  map snd (filter (fun '(pos, _) => negb (has_rule rs pos)) (slots 0 ps)).

(** Conversion to the Rust type that belongs to a declared type. *)
Definition represents (t : argtype) (n : node) (v : value) : Prop :=
  match t with
  | TList _ => exists ns, list_of n = Some ns /\ v = VList ns
  | TAny _ => v = VNode n
  | _ => exists a, atomic n = Some a /\ v = VAtom a
  end.

(** The argument structure holds exactly the given arguments, converted. *)
Definition fields_ok (rs : rules) (ps : list node) (x : args) : Prop :=
  (forall pos r, rule_for rs pos r ->
     match given pos ps with
     | None => arg_at pos (x_args x) = None
     | Some n => exists v, arg_at pos (x_args x) = Some v /\ represents (argtype_of (r_arg r)) n v
     end) /\
  (match trailing rs with
   | Some t => Forall2 (represents t) (surplus rs ps) (x_rest x)
   | None => x_rest x = []
   end).
