(** * Property C77: the output can be exponentially larger than the program

    [doubling]: Spec_growth.v. *)

From Coq Require Import String List Ascii Bool Arith Lia.
From Verif Require Import Text Utf8 Res Ast Parser Env Scope State Format Expander Spec_grammar Spec_tree Spec_growth
  Proofs_growth Conformance Runs.
Import ListNotations.

(** In every environment the program [doubling n], of 15 + 17 n bytes, is
    expanded to 2^n words, already with a budget of 4: no bound on the depth
    of recursion prevents it. *)
Theorem c77_growth : forall E path n, exists ns s,
  expand E 4 path (doubling n) = Ok (ns, s) /\
  map strip ns = SSym [] (b "a") :: repeat (SSym (b " ") (b "a")) (2 ^ n - 1).
Proof. exact (fun E => doubling_run E 0). Qed.
Print Assumptions c77_growth.

(** So the text written is longer than any polynomial allows. *)
Theorem c77_text : forall E path n, exists ns s, utf8 (doubling n) /\ length (doubling n) = 15 + 17 * n /\
  expand E 4 path (doubling n) = Ok (ns, s) /\ length ns = 2 ^ n /\
  text_gen ns = b "a" ++ concat (repeat (b " a") (2 ^ n - 1)) /\ length (text_gen ns) = 2 ^ (n + 1) - 1.
Proof.
  intros E path n. destruct (doubling_run E 0 path n) as [ns [s [R H]]]. exists ns, s.
  split; [apply bomb_utf8|]. split; [apply doubling_length|]. split; [exact R|].
  pose proof (Nat.pow_nonzero 2 n ltac:(lia)) as Z.
  split; [rewrite <- (map_length strip ns), H; cbn [length]; rewrite repeat_length; lia|].
  assert (T : text_gen ns = b "a" ++ concat (repeat (b " a") (2 ^ n - 1))).
  { apply strip_map in H as [v [vs [-> [V W]]]]. apply strip_sym in V as [a [-> [A1 A2]]].
    cbn [text_gen flat_map text_node]. rewrite A1, A2. change (flat_map text_node vs) with (text_gen vs).
    rewrite (words_text vs _ W). reflexivity. }
  split; [exact T|]. rewrite T, app_length.
  assert (L : forall k, length (concat (repeat (b " a") k)) = 2 * k).
  { induction k as [|k IH]; [reflexivity|]. cbn [repeat concat]. rewrite app_length, IH. cbn. lia. }
  rewrite L. rewrite Nat.add_1_r. cbn [Nat.pow]. cbn [length b list_ascii_of_string]. lia.
Qed.
Print Assumptions c77_text.

(** No polynomial in the length of the program bounds the number of nodes. *)
Theorem c77_polynomial_refuted : forall c k, exists text ns s,
  expand env1 4 [] text = Ok (ns, s) /\ c * length text ^ k < length ns.
Proof.
  intros c k. destruct (exceeds c k) as [n H]. destruct (doubling_run env1 0 [] n) as [ns [s [R S]]].
  exists (doubling n), ns, s. split; [exact R|]. rewrite doubling_length, <- (map_length strip ns), S. cbn [length].
  rewrite repeat_length. lia.
Qed.
Print Assumptions c77_polynomial_refuted.

Example c77_example : yields env1 (doubling 3) (b "a a a a a a a a") /\
  doubling 2 = b "(%define x a)(%define x %x %x)(%define x %x %x)%x".
Proof. split; [shows|vm_compute; reflexivity]. Qed.
