(** * Specification: programs that differ in positions only

    Used by C71.  [R] says which positions of the main source of one program
    correspond to which of the other; positions in included files are the
    same. *)

From Coq Require Import String List Ascii Bool Arith.
From Verif Require Import Text Res Ast Env Scope State Spec_grammar Spec_place Args Expander.
Import ListNotations.

Section Moved.
Variable R : site -> site -> Prop.

Definition moved (st st' : site) : Prop :=
  if s_src st =? 0 then s_src st' = 0 /\ R st st' else st' = st.

(** Same text, same whitespace, corresponding positions. *)
Definition alike_atom (a a' : atom) : Prop :=
  a_val a = a_val a' /\ a_ws a = a_ws a' /\ moved (a_site a) (a_site a').
Inductive alike : node -> node -> Prop :=
| al_sym a a' : alike_atom a a' -> alike (Sym a) (Sym a')
| al_num a a' : alike_atom a a' -> alike (Num a) (Num a')
| al_str a a' : alike_atom a a' -> alike (Str a) (Str a')
| al_raw a a' : alike_atom a a' -> alike (Raw a) (Raw a')
| al_list ns ns' st st' ew es es' w : Forall2 alike ns ns' -> moved st st' -> moved es es' ->
    alike (Lst ns st ew es w) (Lst ns' st' ew es' w)
| al_attr k v v' st st' w : alike v v' -> moved st st' -> alike (Attr k v st w) (Attr k v' st' w).

Definition alike_macro (m m' : macro) : Prop :=
  Forall2 alike (m_params m) (m_params m') /\ Forall2 alike (m_body m) (m_body m').
Definition alike_defs (d d' : scope) : Prop := forall k,
  match get k d, get k d' with
  | Some m, Some m' => alike_macro m m'
  | None, None => True
  | _, _ => False
  end.
Definition alike_lines (l l' : list (site * bytes)) : Prop :=
  Forall2 (fun x y => moved (fst x) (fst y) /\ snd x = snd y) l l'.

(** The same outcome: nodes, definitions and log that correspond, or the same
    error at corresponding positions, or the same failure. *)
Inductive alike_outcome : out -> out -> Prop :=
| ao_ok ns ns' s s' : Forall2 alike ns ns' -> alike_defs (x_defs s) (x_defs s') ->
    alike_lines (g_log (x_world s)) (g_log (x_world s')) -> alike_outcome (Ok (ns, s)) (Ok (ns', s'))
| ao_err k st st' : moved st st' -> alike_outcome (Err (EErr k st)) (Err (EErr k st'))
| ao_panic p : alike_outcome (Panic p) (Panic p)
| ao_hang : alike_outcome Hang Hang
| ao_fuel : alike_outcome OutOfFuel OutOfFuel.

(** The same document, or the same error at corresponding positions. *)
Inductive alike_document : res bytes -> res bytes -> Prop :=
| ad_text x : alike_document (Ok x) (Ok x)
| ad_err k st st' : moved st st' -> alike_document (Err (EErr k st)) (Err (EErr k st'))
| ad_panic p : alike_document (Panic p) (Panic p)
| ad_hang : alike_document Hang Hang
| ad_fuel : alike_document OutOfFuel OutOfFuel.
End Moved.

(** A tree with no element named pre, whose content is copied from the source,
    comments included. *)
Fixpoint preless (n : node) : Prop :=
  match n with
  | Lst ns _ _ _ _ =>
      match ns with Sym a :: _ => to_lower (a_val a) <> b "pre" | _ => True end /\
      (fix all (l : list node) : Prop := match l with [] => True | x :: l' => preless x /\ all l' end) ns
  | _ => True
  end.

(** ** Programs that make no lambdas

    The name of a lambda is made from its position.  Here is the expander with
    [what] in the place of [%lambda], wherever it is called from the main
    source. *)
Fixpoint run_with (what : out) (E : env) (fuel : nat) (t : task) (s : state) : out :=
  match fuel with
  | 0 => OutOfFuel
  | S f =>
      let ex n s := run_with what E f (TNode n) s in
      let inv name c ps s := run_with what E f (TInvoke name c ps) s in
      match t with
      | TNode n => expand_one ex inv n s
      | TInvoke name c ps =>
          if beq name (b "lambda") && (s_src (call_site c) =? 0) then what
          else invoke E ex inv name c ps s
      end
  end.
(** Whatever [%lambda] would do instead, the outcome is the same. *)
Definition lambda_free (E : env) (fuel : nat) (tree : list node) (s : state) : Prop :=
  forall what, exs (fun n s => run_with what E fuel (TNode n) s) tree s = expand_nodes E fuel tree s.

(** ** Changing comments

    The two sources have the same tokens, and in front of each the same
    whitespace; comments do not count, and a string may be written between
    single or triple quotes. *)
Inductive Reworded : bytes -> bytes -> Prop :=
| rw_end t t' : Trailing t -> Trailing t' -> Reworded t t'
| rw_token bl bl' w txt txt' k v rest rest' : Blank bl w -> Blank bl' w ->
    TokText txt k v rest -> TokText txt' k v rest' -> Reworded rest rest' ->
    Reworded (bl ++ txt ++ rest) (bl' ++ txt' ++ rest').

(** [Partners c c' st st']: for some [n], [st] and [st'] are the marks of the
    [n]-th tokens after [c] and after [c']. *)
Inductive Partners : cursor -> cursor -> site -> site -> Prop :=
| pt_here c c' k v w st st' c1 c1' : Next 0 c k v w st c1 -> Next 0 c' k v w st' c1' -> Partners c c' st st'
| pt_later c c' k v w st0 st0' c1 c1' st st' : Next 0 c k v w st0 c1 -> Next 0 c' k v w st0' c1' ->
    Partners c1 c1' st st' -> Partners c c' st st'.
Definition partners (src src' : bytes) : site -> site -> Prop := Partners (beginning src) (beginning src').
