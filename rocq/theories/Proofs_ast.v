(** * Induction on syntax trees *)

From Coq Require Import List Ascii Bool Arith Lia.
From Verif Require Import Text Res Ast Spec_grammar Proofs_text.
Import ListNotations.

Section NodeInd.
Variable P : node -> Prop.
Hypothesis HSym : forall a, P (Sym a).
Hypothesis HNum : forall a, P (Num a).
Hypothesis HStr : forall a, P (Str a).
Hypothesis HRaw : forall a, P (Raw a).
Hypothesis HLst : forall ns s ew es w, Forall P ns -> P (Lst ns s ew es w).
Hypothesis HAttr : forall k v s w, P v -> P (Attr k v s w).
Fixpoint node_ind' (n : node) : P n :=
  match n with
  | Sym a => HSym a
  | Num a => HNum a
  | Str a => HStr a
  | Raw a => HRaw a
  | Lst ns s ew es w =>
      HLst ns s ew es w
        ((fix go (l : list node) : Forall P l :=
            match l with
            | [] => Forall_nil P
            | x :: l' => Forall_cons x (node_ind' x) (go l')
            end) ns)
  | Attr k v s w => HAttr k v s w (node_ind' v)
  end.
End NodeInd.

Section StreeInd.
Variable P : stree -> Prop.
Hypothesis HSym : forall w v, P (SSym w v).
Hypothesis HNum : forall w v, P (SNum w v).
Hypothesis HStr : forall w v, P (SStr w v).
Hypothesis HRaw : forall w v, P (SRaw w v).
Hypothesis HLst : forall w ns ew, Forall P ns -> P (SList w ns ew).
Hypothesis HAttr : forall w k v, P v -> P (SAttr w k v).
Fixpoint stree_ind' (n : stree) : P n :=
  match n with
  | SSym w v => HSym w v
  | SNum w v => HNum w v
  | SStr w v => HStr w v
  | SRaw w v => HRaw w v
  | SList w ns ew =>
      HLst w ns ew
        ((fix go (l : list stree) : Forall P l :=
            match l with
            | [] => Forall_nil P
            | x :: l' => Forall_cons x (stree_ind' x) (go l')
            end) ns)
  | SAttr w k v => HAttr w k v (stree_ind' v)
  end.
End StreeInd.
