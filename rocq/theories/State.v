(** * State of the expander ([expander.rs:85-96] [struct Expander]) *)

From Coq Require Import String List Ascii Bool Arith.
From Verif Require Import Text Res Ast Env Scope.
Import ListNotations.

(** The vector [invocations], as far as its memory is concerned: number of
    elements, capacity, and how often its buffer has been reallocated. *)
Record vec := Vec { v_len : nat; v_cap : nat; v_gen : nat }.

(** [Vec::push]: a full buffer is replaced by one of twice the size (at
    least 4), invalidating references into the old one. *)
Definition vec_push (v : vec) : vec :=
  if v_len v =? v_cap v then Vec (S (v_len v)) (Nat.max 4 (2 * v_cap v)) (S (v_gen v))
  else Vec (S (v_len v)) (v_cap v) (v_gen v).

(** [Vec::clone] allocates exactly what is needed. *)
Definition vec_clone (v : vec) : vec := Vec (v_len v) (v_len v) 0.

(** Effects that are not undone when a subcontext ends. *)
Record world := World {
  g_log : list (site * bytes);        (* lines written by [%log] *)
  g_seed : nat;                       (* hash maps created so far *)
  g_ordered : nat;                    (* times a result depended on the order
                                         of at least two hash-map entries *)
  g_sources : list (bytes * bytes);   (* path and text of every source read *)
  g_freed : list nat;                 (* sources whose buffers were freed *)
  g_dangling : nat                    (* reads through dangling references *)
}.

(** [expander.rs:85-96]: [definitions] and [invocations]; [subparsers] are
    the entries of [g_sources] allocated in this context. *)
Record state := State { x_defs : scope; x_vec : vec; x_world : world }.

Definition set_defs (d : scope) (s : state) : state := State d (x_vec s) (x_world s).
Definition set_world (w : world) (s : state) : state := State (x_defs s) (x_vec s) w.

Definition put_var (k : bytes) (body : list node) (s : state) : state :=
  set_defs (put k (variable body) (x_defs s)) s.

(** Use up seeds for [n] new hash maps. *)
Definition new_maps (n : nat) (s : state) : state :=
  let w := x_world s in
  set_world (World (g_log w) (n + g_seed w) (g_ordered w) (g_sources w) (g_freed w)
                   (g_dangling w)) s.
Definition order_matters (s : state) : state :=
  let w := x_world s in
  set_world (World (g_log w) (g_seed w) (S (g_ordered w)) (g_sources w) (g_freed w)
                   (g_dangling w)) s.
Definition log_line (st : site) (text : bytes) (s : state) : state :=
  let w := x_world s in
  set_world (World (g_log w ++ [(st, text)]) (g_seed w) (g_ordered w) (g_sources w)
                   (g_freed w) (g_dangling w)) s.
(** [expander.rs:126-139] [register_parser]: the new source's number. *)
Definition add_source (path text : bytes) (s : state) : nat * state :=
  let w := x_world s in
  (length (g_sources w),
   set_world (World (g_log w) (g_seed w) (g_ordered w) (g_sources w ++ [(path, text)])
                    (g_freed w) (g_dangling w)) s).

(** A reference to a macro invocation in the vector [invocations]
    ([expander.rs:163-169] [register_invocation]): the node, and the
    generation of the buffer the reference points into.
    Simplification: the model reads the node itself, also when the reference
    dangles; such reads are counted in [g_dangling]. *)
Record call := Call { c_node : node; c_gen : nat }.

Definition register (n : node) (s : state) : call * state :=
  let v := vec_push (x_vec s) in
  (Call n (v_gen v), State (x_defs s) v (x_world s)).

(** Reading through the reference. *)
Definition touch (c : call) (s : state) : state :=
  if c_gen c =? v_gen (x_vec s) then s
  else let w := x_world s in
       set_world (World (g_log w) (g_seed w) (g_ordered w) (g_sources w) (g_freed w)
                        (S (g_dangling w))) s.

(** Freeing the sources read since there were [n]. *)
Definition free_from (n : nat) (w : world) : world :=
  World (g_log w) (g_seed w) (g_ordered w) (g_sources w)
        (seq n (length (g_sources w) - n) ++ g_freed w) (g_dangling w).

(** Running [m] in a subcontext ([self.clone()]): it starts from a copy of
    the definitions and of [invocations]; at its end these are dropped, and
    so are the parsers it registered.  Returns the result of [m], the
    definitions at the end of [m], and the state of the outer context.
    Simplification: when [m] fails, its effects are not recorded (the
    expansion as a whole fails then). *)
Definition in_frame {A} (m : state -> res (A * state)) (s : state)
  : res (A * scope * state) :=
  let* '(x, s1) := m (State (x_defs s) (vec_clone (x_vec s)) (x_world s)) in
  Ok (x, x_defs s1,
      State (x_defs s) (x_vec s) (free_from (length (g_sources (x_world s))) (x_world s1))).

(** [expander.rs:99-108] [Expander::new] for the main source. *)
Definition initial (path text : bytes) : state :=
  State no_defs (Vec 0 0 0) (World [] 0 0 [(path, text)] [] 0).
