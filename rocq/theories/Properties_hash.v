(** * Property C10, continued: hashing *)

From Coq Require Import String List Ascii Bool Arith.
From Verif Require Import Text Res Ast Parser Spec_tree Proofs_hash Conformance.
Import ListNotations.

(** Nodes feed the same data to the hasher exactly if they are equal: no two
    different nodes collide, whatever the hasher is, because of what they feed
    to it. *)
Theorem c10_hash_exact : forall x y, node_hash x = node_hash y <-> node_eq x y = true.
Proof. exact hash_exact. Qed.
Print Assumptions c10_hash_exact.

(** Nor does one begin with what another feeds: where nodes are hashed one
    after another, the boundaries between them are determined. *)
Theorem c10_hash_prefix : forall x y r r', node_hash x ++ r = node_hash y ++ r' -> shape x = shape y /\ r = r'.
Proof. exact hash_prefix. Qed.
Print Assumptions c10_hash_prefix.

Theorem c10_hash_sequence : forall xs ys, flat_map node_hash xs = flat_map node_hash ys -> map shape xs = map shape ys.
Proof. exact hash_lists. Qed.
Print Assumptions c10_hash_sequence.

(** [((a) b)] and [((a b))] consist of the same symbols. *)
Definition c10_read (s : string) : list node := match parse unescape0 0 (b s) with Ok t => t | _ => [] end.
Example c10_hash_example :
  map node_hash (c10_read "((a) b)") = [[HU8 4; HLen 2; HU8 4; HLen 1; HU8 0; HStr (b "a"); HU8 0; HStr (b "b")]] /\
  map node_hash (c10_read "((a b))") = [[HU8 4; HLen 1; HU8 4; HLen 2; HU8 0; HStr (b "a"); HU8 0; HStr (b "b")]] /\
  map node_hash (c10_read "( ( a )  b )") = map node_hash (c10_read "((a) b)").
Proof. vm_compute. auto. Qed.
