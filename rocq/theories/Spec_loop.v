(** * Specification: termination and divergence *)

From Coq Require Import String List Ascii Bool Arith.
From Verif Require Import Text Res Ast Env Scope State Expander Spec_args Spec_expand Spec_builtin Spec_bind.
Import ListNotations.

(** Nesting depth. *)
Fixpoint depth (n : node) : nat :=
  match n with
  | Lst ns _ _ _ _ => S (fold_right Nat.max 0 (map depth ns))
  | Attr _ v _ _ => S (depth v)
  | _ => 1
  end.

(** No budget suffices. *)
Definition diverges (E : env) (n : node) (s : state) : Prop :=
  forall f, expand_node E f n s = OutOfFuel.
Definition program_diverges (E : env) (path text : bytes) : Prop :=
  forall f, expand E f path text = OutOfFuel.

(** Among the nodes, reached whatever happens, is one for which [P] holds. *)
Definition leads_to (P : node -> Prop) (ns : list node) : Prop :=
  exists before n after, ns = before ++ n :: after /\ Forall macro_free before /\ P n.

(** A call of [name] whose arguments are macro-free and can be bound to the
    parameters of [m]. *)
Definition calls (m : macro) (name : bytes) (n : node) : Prop :=
  exists args l, is_call name args n /\ Forall macro_free args /\ binds_list (m_params m) (received args) l.

(** The symbol [%name]. *)
Definition uses (name : bytes) (n : node) : Prop := exists a, n = Sym a /\ a_val a = b "%" ++ name.

(** [(%include file)]. *)
Definition includes (file : bytes) (n : node) : Prop :=
  exists x a, is_call (b "include") [x] n /\ macro_free x /\ atomic x = Some a /\ a_val a = file.
