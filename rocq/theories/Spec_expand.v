(** * Vocabulary for statements about macro expansion *)

From Coq Require Import String List Ascii Bool Arith.
From Verif Require Import Text Res Ast Env Scope State Expander.
Import ListNotations.

(** The outcome that a family of computations, one for each recursion budget,
    has for every large enough budget. *)
Definition settles {A} (m : nat -> res A) (r : res A) : Prop :=
  r <> OutOfFuel /\ exists f, forall f', f <= f' -> m f' = r.

(** What a failed first step makes of the whole. *)
Definition fails {A B} (q : res A) (r : res B) : Prop :=
  match q with
  | Ok _ => False
  | Err e => r = Err e
  | Panic p => r = Panic p
  | Hang => r = Hang
  | OutOfFuel => False
  end.

(** [eval E n s r]: expanding node [n] in state [s] has outcome [r];
    [evals]: the same for a sequence of nodes, [invokes] for a macro
    invocation with unexpanded arguments. *)
Definition eval (E : env) (n : node) (s : state) (r : out) : Prop :=
  settles (fun f => expand_node E f n s) r.
Definition evals (E : env) (ns : list node) (s : state) (r : out) : Prop :=
  settles (fun f => expand_nodes E f ns s) r.
Definition invokes (E : env) (name : bytes) (c : call) (ps : list node) (s : state) (r : out)
  : Prop := settles (fun f => expand_invocation E f name c ps s) r.

(** All symbols occurring in a node. *)
Fixpoint symbols (n : node) : list bytes :=
  match n with
  | Sym a => [a_val a]
  | Num _ | Str _ | Raw _ => []
  | Lst ns _ _ _ _ => flat_map symbols ns
  | Attr _ v _ _ => symbols v
  end.

(** No symbol starts with a percent sign. *)
Definition macro_free (n : node) : Prop :=
  Forall (fun v => starts_with (b "%") v = false) (symbols n).

(** [n] is the list [(%name args...)]. *)
Definition is_call (name : bytes) (args : list node) (n : node) : Prop :=
  exists a st ew es w, n = Lst (Sym a :: args) st ew es w /\ a_val a = b "%" ++ name.

(** The arguments as the macro receives them: the first one has lost its
    leading whitespace, unless that contains a line feed. *)
Definition received (args : list node) : list node :=
  match args with
  | [] => []
  | p :: ps => (if has LF (leading_ws p) then p else set_ws [] p) :: ps
  end.

(** State and reference with which an invocation starts: the scope is that of
    the caller. *)
Definition entered (n : node) (s : state) : state := snd (register n s).
Definition ref (n : node) (s : state) : call := fst (register n s).

(** A copy of the context, and leaving it again: the definitions of the
    caller are restored, the world keeps its effects, and sources read in
    between are freed. *)
Definition copied (s : state) : state :=
  State (x_defs s) (vec_clone (x_vec s)) (x_world s).
Definition left_ (s s1 : state) : state :=
  State (x_defs s) (x_vec s) (free_from (length (g_sources (x_world s))) (x_world s1)).
