(** * Model of pattern binding ([expander.rs:187-443]) *)

From Coq Require Import String List Ascii Bool Arith.
From Verif Require Import Text Res Ast Env Scope State Args.
Import ListNotations.

(** [HashMap::insert] on an association list. *)
Fixpoint named_insert (k : bytes) (n : node) (l : list (bytes * node)) : list (bytes * node) :=
  match l with
  | [] => [(k, n)]
  | (k', n') :: l' => if beq k k' then (k, n) :: l' else (k', n') :: named_insert k n l'
  end.
(** [HashMap::remove]. *)
Definition named_remove (k : bytes) (l : list (bytes * node)) : list (bytes * node) :=
  List.filter (fun '(k', _) => negb (beq k k')) l.

(** [expander.rs:317-326]: skip keyword arguments, remembering them, until a
    positional one. *)
Fixpoint next_positional (rhs : list node) (named : list (bytes * node))
  : option (node * list node * list (bytes * node)) :=
  match rhs with
  | [] => None
  | n :: rhs' =>
      match n with
      | Attr k _ _ _ => next_positional rhs' (named_insert k n named)
      | _ => Some (n, rhs', named)
      end
  end.

(** [expander.rs:333-343]: the arguments left over. *)
Fixpoint leftover (rhs : list node) (named : list (bytes * node))
  : list node * list (bytes * node) :=
  match rhs with
  | [] => ([], named)
  | n :: rhs' =>
      match n with
      | Attr k _ _ _ => leftover rhs' (named_insert k n named)
      | _ => let '(rest, named) := leftover rhs' named in (n :: rest, named)
      end
  end.

(** Progress of [bind_list]: right-hand side still to read, the two keyword
    maps, and the &-rest and &&-rest nodes found. *)
Record progress := Progress {
  b_rhs : list node; b_rhs_named : list (bytes * node); b_lhs_named : list (bytes * node);
  b_rest : option atom; b_rest_kw : option atom
}.

Definition is_rest_kw (n : node) : option atom :=
  match symbol n with
  | Some a => if starts_with (b "&&") (a_val a) then Some a else None
  | None => None
  end.
Definition is_rest (n : node) : option atom :=
  match symbol n with
  | Some a => if starts_with (b "&") (a_val a) then Some a else None
  | None => None
  end.

Section Loop.
(** Binding of one positional pattern node. *)
Variable bind : node -> node -> state -> res state.
Variable assigned : site.

(** [expander.rs:266-331] the loop over the pattern. *)
Fixpoint bind_positional (pats : list node) (p : progress) (s : state) {struct pats} : res (progress * state) :=
  match pats with
  | [] => Ok (p, s)
  | n0 :: pats' =>
      match n0 with
      | Attr k v _ _ =>
          bind_positional pats'
            (Progress (b_rhs p) (b_rhs_named p) (named_insert k v (b_lhs_named p))
                      (b_rest p) (b_rest_kw p)) s
      | _ =>
          match is_rest_kw n0, is_rest n0 with
          | Some a, _ =>
              match b_rest_kw p with
              | Some _ => Err (EErr EBindMultiRest (node_site n0))
              | None => bind_positional pats'
                          (Progress (b_rhs p) (b_rhs_named p) (b_lhs_named p)
                                    (b_rest p) (Some a)) s
              end
          | None, Some a =>
              match b_rest p with
              | Some _ => Err (EErr EBindMultiRest (node_site n0))
              | None => bind_positional pats'
                          (Progress (b_rhs p) (b_rhs_named p) (b_lhs_named p)
                                    (Some a) (b_rest_kw p)) s
              end
          | None, None =>
              match next_positional (b_rhs p) (b_rhs_named p) with
              | None => Err (EErr EBindTooFew assigned)
              | Some (n1, rhs, named) =>
                  let* s := bind n0 n1 s in
                  bind_positional pats'
                    (Progress rhs named (b_lhs_named p) (b_rest p) (b_rest_kw p)) s
              end
          end
      end
  end.
End Loop.

Section WithEnv.
Variable E : env.

(** [expander.rs:365-383]: one variable per keyword parameter, in the order
    of the hash map. *)
Fixpoint bind_named (keys : list bytes) (lhs rhs : list (bytes * node)) (s : state)
  : list (bytes * node) * state :=
  match keys with
  | [] => (rhs, s)
  | k :: keys' =>
      let value :=
        match assoc k rhs with
        | Some (Attr _ v _ _) => Some v
        | _ => assoc k lhs
        end in
      let s := match value with Some v => put_var k [v] s | None => s end in
      bind_named keys' lhs (named_remove k rhs) s
  end.

(** The nodes of the map's entries, in the order of the given keys. *)
Definition entries (keys : list bytes) (l : list (bytes * node)) : list node :=
  flat_map (fun k => match assoc k l with Some n => [n] | None => [] end) keys.

(** [expander.rs:332-443] the part of [bind_list] after the loop; [seed] is
    the seed of [rhs_named], [S seed] that of [lhs_named]. *)
Definition bind_rest (seed : nat) (p : progress) (s : state) : res state :=
  let '(rest, rhs_named) := leftover (b_rhs p) (b_rhs_named p) in
  let* s :=
    match b_rest p, rev rest with
    | Some a, _ => Ok (put_var (skipn 1 (a_val a)) rest s)
    | None, last :: _ => Err (EErr EBindExcess (node_site last))
    | None, [] => Ok s
    end in
  let '(rhs_named, s) :=
    bind_named (e_order E (S seed) (map fst (b_lhs_named p))) (b_lhs_named p) rhs_named s in
  let keys := e_order E seed (map fst rhs_named) in
  match b_rest_kw p with
  | Some a =>
      let s := if 2 <=? length rhs_named then order_matters s else s in
      Ok (put_var (skipn 2 (a_val a)) (entries keys rhs_named) s)
  | None =>
      match entries keys rhs_named with
      | [] => Ok s
      | n :: _ => Err (EErr EBindExcessKeyword (node_site n))
      end
  end.

Definition bind_list_with (bind : node -> node -> state -> res state) (assigned : site)
  (pats vals : list node) (s : state) : res state :=
  let seed := g_seed (x_world s) in
  let* '(p, s) :=
    bind_positional bind assigned pats (Progress vals [] [] None None) (new_maps 2 s) in
  bind_rest seed p s.

(** [expander.rs:187-251] [bind]. *)
Fixpoint bind_node (pat : node) (val : node) (s : state) {struct pat} : res state :=
  let mismatch := Err (EErr EBindPattern (node_site val)) in
  match pat with
  | Attr k0 p _ _ =>
      match val with
      | Attr k1 v _ _ => if beq k0 k1 then bind_node p v s else mismatch
      | _ => mismatch
      end
  | Lst pats _ _ _ _ =>
      match val with
      | Lst vals _ _ _ _ =>
          bind_list_with bind_node (node_site val) pats vals s
      | _ => Err (EErr EBindExpectedList (node_site val))
      end
  | Sym a => Ok (put_var (a_val a) [val] s)
  | Num a =>
      match val with
      | Num v => if beq (a_val a) (a_val v) then Ok s else mismatch
      | _ => mismatch
      end
  | Str a | Raw a =>
      match val with
      | Str v | Raw v => if beq (a_val a) (a_val v) then Ok s else mismatch
      | _ => mismatch
      end
  end.

(** [expander.rs:253-443] [bind_list]. *)
Definition bind_list := bind_list_with bind_node.
End WithEnv.
