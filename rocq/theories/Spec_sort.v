(** * Specification of sorting *)

From Coq Require Import String List Ascii Bool Arith Permutation Sorted.
From Verif Require Import Text Res Ast Env State Sorting Expander Spec_args Spec_expand.
Import ListNotations.

(** [cmp] is a total preorder on the elements of [l]. *)
Definition preorder {A} (cmp : A -> A -> comparison) (l : list A) : Prop :=
  (forall x y, In x l -> In y l -> cmp y x = CompOpp (cmp x y)) /\
  (forall x y z, In x l -> In y l -> In z l ->
     cmp x y <> Gt -> cmp y z <> Gt -> cmp x z <> Gt).

Definition equivalent {A} (cmp : A -> A -> comparison) (x y : A) : bool :=
  match cmp x y with Eq => true | _ => false end.

(** [l'] has the elements of [l] in ascending order, and elements that
    compare equal in the order they have in [l]. *)
Definition stable_sorted {A} (cmp : A -> A -> comparison) (l l' : list A) : Prop :=
  Permutation l' l /\
  StronglySorted (fun x y => cmp x y <> Gt) l' /\
  forall x, In x l -> filter (equivalent cmp x) l' = filter (equivalent cmp x) l.

(** What sorting makes of [l].  If [cmp] is no preorder on it, then the
    standard library panics or returns the elements in some order. *)
Inductive picked {A} : list nat -> list A -> list A -> Prop :=
| picked_rest l : picked [] l l
| picked_none ks : picked ks [] []
| picked_next k ks before x after l' :
    length before = k mod length (before ++ x :: after) -> picked ks (before ++ after) l' ->
    picked (k :: ks) (before ++ x :: after) (x :: l').
Definition answers {A} (cmp : A -> A -> comparison) (l : list A) : list (list comparison) :=
  map (fun x => map (cmp x) l) l.
Inductive sorts {A} (E : env) (cmp : A -> A -> comparison) (l : list A) : res (list A) -> Prop :=
| sorts_stable l' : preorder cmp l -> stable_sorted cmp l l' -> sorts E cmp l (Ok l')
| sorts_somehow ks l' :
    ~ preorder cmp l -> e_unsorted E (answers cmp l) = Some ks -> picked ks l l' -> sorts E cmp l (Ok l')
| sorts_panics : ~ preorder cmp l -> e_unsorted E (answers cmp l) = None -> sorts E cmp l (Panic PSortOrder).

(** [ns] are the nodes [xs], but with the whitespace of [ws] in each place. *)
Definition arranged (xs ws ns : list node) : Prop :=
  map (set_ws []) ns = map (set_ws []) xs /\ map leading_ws ns = map leading_ws ws.

(** Pairs of the nodes with their sort keys: the text that macro [name] gives
    for the node. *)
Inductive keyed (E : env) (name : bytes) (c : call) (key_site : site)
  : list node -> state -> res (list (bytes * node) * state) -> Prop :=
| keyed_done s : keyed E name c key_site [] s (Ok ([], s))
| keyed_round n ns s k a s1 items s2 :
    invokes E name c [n] s (Ok ([k], s1)) -> atomic k = Some a ->
    keyed E name c key_site ns s1 (Ok (items, s2)) ->
    keyed E name c key_site (n :: ns) s (Ok ((a_val a, n) :: items, s2))
| keyed_later n ns s k a s1 q r :
    invokes E name c [n] s (Ok ([k], s1)) -> atomic k = Some a ->
    keyed E name c key_site ns s1 q -> fails q r ->
    keyed E name c key_site (n :: ns) s r
| keyed_not_text n ns s k s1 :
    invokes E name c [n] s (Ok ([k], s1)) -> atomic k = None ->
    keyed E name c key_site (n :: ns) s (Err (EErr ESort (node_site k)))
| keyed_not_one n ns s ks s1 :
    invokes E name c [n] s (Ok (ks, s1)) -> length ks <> 1 ->
    keyed E name c key_site (n :: ns) s (Err (EErr ESort key_site))
| keyed_error n ns s e :
    invokes E name c [n] s (Err e) -> keyed E name c key_site (n :: ns) s (Err (EErr ESort key_site))
| keyed_panic n ns s p :
    invokes E name c [n] s (Panic p) -> keyed E name c key_site (n :: ns) s (Panic p)
| keyed_hang n ns s :
    invokes E name c [n] s Hang -> keyed E name c key_site (n :: ns) s Hang.

(** Comparison of keyed elements. *)
Definition by_key (E : env) (descending : bool) (x y : bytes * node) : comparison :=
  if descending then key_cmp E (fst y) (fst x) else key_cmp E (fst x) (fst y).
