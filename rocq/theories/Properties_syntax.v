(** * Properties of syntax errors (C65) *)

From Coq Require Import String List Ascii Bool Arith Lia.
From Verif Require Import Text Utf8 Res Lexer Ast Parser Spec_grammar Spec_syntax Proofs_text
  Proofs_parser Proofs_syntax Conformance.
Import ListNotations.

(** ** C65: a syntax error names the first defect of the text and marks it *)

(** The parser reports a defect exactly if the text has it and everything
    before it is well formed; the position is where the defect starts, and the
    bytes marked are those it consists of. *)
Theorem c65_first_defect : forall unescape id src k off n, utf8 src ->
  (exists st, parse unescape id src = Err (EErr k st) /\ s_off st = off /\ s_span st = n) <->
  off <= length src /\ BadProgram unescape src k (skipn off src) n.
Proof. exact parse_error_iff. Qed.
Print Assumptions c65_first_defect.

(** A text has at most one first defect. *)
Theorem c65_one_defect : forall unescape src k here n k' here' n', utf8 src ->
  BadProgram unescape src k here n -> BadProgram unescape src k' here' n' ->
  k = k' /\ here = here' /\ n = n'.
Proof.
  intros u src k h n k' h' n' U B B'.
  assert (Q : forall k h n, BadProgram u src k h n -> exists off st, parse u 0 src = Err (EErr k st) /\
    s_off st = off /\ s_span st = n /\ h = skipn off src).
  { intros k0 h0 n0 B0. destruct (bad_program_suffix _ _ _ _ _ B0) as [S _]. pose proof S as [p E].
    assert (L : length p + length h0 = length src) by (rewrite E, app_length; reflexivity).
    pose proof (suffix_at _ _ _ S L) as K. exists (length p).
    destruct (proj2 (parse_error_iff u 0 src k0 (length p) n0 U)) as (st & E1 & E2 & E3).
    { split; [lia|]. rewrite K. exact B0. }
    exists st. auto. }
  destruct (Q _ _ _ B) as (off & st & E1 & E2 & E3 & E4).
  destruct (Q _ _ _ B') as (off' & st' & E1' & E2' & E3' & E4').
  rewrite E1 in E1'. injection E1' as -> ->. subst. auto.
Qed.
Print Assumptions c65_one_defect.

(** Every text is a program, or has a first defect, or breaks off after a
    backslash (for which the lexer waits for ever: C01); never two of them. *)
Theorem c65_trichotomy : forall unescape src, utf8 src ->
  ((exists ts, Program unescape src ts) \/ (exists k here n, BadProgram unescape src k here n) \/
   Dangling unescape src) /\
  (forall ts k here n, Program unescape src ts -> ~ BadProgram unescape src k here n) /\
  (forall ts, Program unescape src ts -> ~ Dangling unescape src) /\
  (forall k here n, BadProgram unescape src k here n -> ~ Dangling unescape src).
Proof.
  intros u src U.
  assert (P : forall ts, Program u src ts -> exists ns, parse u 0 src = Ok ns).
  { intros ts H. apply (parse_grammar u 0 src ts U) in H as (ns & E & _). eauto. }
  assert (B : forall k here n, BadProgram u src k here n -> exists st, parse u 0 src = Err (EErr k st)).
  { intros k h n B0. destruct (bad_program_suffix _ _ _ _ _ B0) as [S _]. pose proof S as [p E].
    assert (L : length p + length h = length src) by (rewrite E, app_length; reflexivity).
    destruct (proj2 (parse_error_iff u 0 src k (length p) n U)) as (st & E1 & _).
    { split; [lia|]. rewrite (suffix_at _ _ _ S L). exact B0. }
    eauto. }
  assert (D : Dangling u src -> parse u 0 src = Hang).
  { intros H. apply parse_hang_iff; assumption. }
  split; [|split; [|split]].
  - pose proof (parse_returns u 0 src U) as R. destruct (parse u 0 src) as [ns|[k st]| | |] eqn:E; try contradiction.
    + left. eexists. apply (parse_grammar u 0 src _ U). eauto.
    + right; left. destruct (proj1 (parse_error_iff u 0 src k (s_off st) (s_span st) U)) as [_ X]; eauto.
    + auto.
  - intros ts k h n HP HB. apply P in HP as [ns E]. apply B in HB as [st E']. congruence.
  - intros ts HP HD. apply P in HP as [ns E]. apply D in HD. congruence.
  - intros k h n HB HD. apply B in HB as [st E]. apply D in HD. congruence.
Qed.
Print Assumptions c65_trichotomy.

Definition defect (src : bytes) : option (ekind * nat * nat) :=
  match parse (fun t => if beq t (b "\q") then None else Some t) 0 src with
  | Err (EErr k st) => Some (k, s_off st, s_span st)
  | _ => None
  end.
Example c65_example : map defect
  [b "(a b) )"; b "(a (b c)"; b "(a :k) )"; b "a :key ; end"; b "(a :k ""b)"; b "((a """"""b"") )";
   b "(a :k ""\q"")"; b "(a :k (b c"; b "(a b c)"] =
  [Some (EUnexpectedRParen, 6, 1); Some (EExpectedRParen, 0, 1); Some (EKeywordNoValue, 3, 2);
   Some (EKeywordNoValue, 2, 4); Some (EUnclosedString, 6, 1); Some (EUnclosedTriple, 4, 3);
   Some (EBadEscape, 6, 4); Some (EExpectedRParen, 6, 1); None].
Proof. vm_compute. reflexivity. Qed.
