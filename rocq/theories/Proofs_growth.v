(** * Proof of C77: the output can be exponentially larger than the program *)

From Coq Require Import String List Ascii Bool Arith Lia.
From Verif Require Import Text Utf8 Res Ast Env Scope State Parser Format Expander
  Spec_grammar Spec_tree Spec_expand Spec_builtin Spec_growth Proofs_text Proofs_print Proofs_parser.
Import ListNotations.

Section Growth.
Variable E : env.
Notation un := (e_unescape E).

(** ** Reading the program *)

Definition first_tree : stree := SList [] [SSym [] (b "%define"); SSym (b " ") (b "x"); SSym (b " ") (b "a")] [].
Definition double_tree : stree :=
  SList [] [SSym [] (b "%define"); SSym (b " ") (b "x"); SSym (b " ") (b "%x"); SSym (b " ") (b "%x")] [].
Definition last_tree : stree := SSym [] (b "%x").

Lemma blank_nil : Blank [] []. Proof. constructor. constructor. Qed.
Lemma blank_space : Blank (b " ") (b " "). Proof. constructor. constructor; [|constructor]. unfold blank_char. auto. Qed.
Ltac identifier := repeat first [apply id_nil | apply id_plain; [split; [unfold delimiter, blank_char; intuition discriminate|discriminate]|]].
Ltac starts := split; [unfold delimiter, blank_char; intuition discriminate|]; split;
  [intros [[A B]|[A|A]]; [apply Nat.leb_le in A, B; discriminate A || discriminate B|discriminate A|discriminate A]|split; discriminate].

Lemma sym0 c t rest : symbol_start c -> Ident (c :: t) -> stops rest -> Expr un ((c :: t) ++ rest) (SSym [] (unbackslash (c :: t))) rest.
Proof. intros S I R. exact (e_sym un [] [] c t rest blank_nil S I R). Qed.
Lemma sym1 c t rest : symbol_start c -> Ident (c :: t) -> stops rest ->
  Expr un (b " " ++ (c :: t) ++ rest) (SSym (b " ") (unbackslash (c :: t))) rest.
Proof. intros S I R. exact (e_sym un (b " ") (b " ") c t rest blank_space S I R). Qed.

Lemma reads_first rest : Expr un (b "(%define x a)" ++ rest) first_tree rest.
Proof.
  apply (e_list un [] [] (b "%define x a)" ++ rest) _ [] rest blank_nil).
  eapply i_cons; [apply (sym0 "%"%char (b "define") (b " x a)" ++ rest)); [starts|identifier|cbn; unfold delimiter, blank_char; auto]|].
  eapply i_cons; [apply (sym1 "x"%char [] (b " a)" ++ rest)); [starts|identifier|cbn; unfold delimiter, blank_char; auto]|].
  eapply i_cons; [apply (sym1 "a"%char [] (b ")" ++ rest)); [starts|identifier|cbn; unfold delimiter, blank_char; auto 10]|].
  exact (i_end un [] [] rest blank_nil).
Qed.
Lemma reads_double rest : Expr un (b "(%define x %x %x)" ++ rest) double_tree rest.
Proof.
  apply (e_list un [] [] (b "%define x %x %x)" ++ rest) _ [] rest blank_nil).
  eapply i_cons; [apply (sym0 "%"%char (b "define") (b " x %x %x)" ++ rest)); [starts|identifier|cbn; unfold delimiter, blank_char; auto]|].
  eapply i_cons; [apply (sym1 "x"%char [] (b " %x %x)" ++ rest)); [starts|identifier|cbn; unfold delimiter, blank_char; auto]|].
  eapply i_cons; [apply (sym1 "%"%char (b "x") (b " %x)" ++ rest)); [starts|identifier|cbn; unfold delimiter, blank_char; auto 10]|].
  eapply i_cons; [apply (sym1 "%"%char (b "x") (b ")" ++ rest)); [starts|identifier|cbn; unfold delimiter, blank_char; auto 10]|].
  exact (i_end un [] [] rest blank_nil).
Qed.
Lemma reads_doubles n : Program un (concat (repeat (b "(%define x %x %x)") n) ++ b "%x") (repeat double_tree n ++ [last_tree]).
Proof.
  induction n as [|n IH]; cbn [repeat concat List.app].
  - eapply p_cons; [apply (sym0 "%"%char (b "x") []); [starts|identifier|exact I]|]. apply p_end, (trail_blank [] []), blank_nil.
  - eapply p_cons; [|exact IH]. rewrite <- app_assoc. apply reads_double.
Qed.
Lemma reads_bomb n : Program un (doubling n) (first_tree :: repeat double_tree n ++ [last_tree]).
Proof. unfold doubling. eapply p_cons; [apply reads_first|apply reads_doubles]. Qed.

Lemma bomb_utf8 n : utf8 (doubling n).
Proof.
  unfold doubling. apply utf8_app2; [apply is_utf8; vm_compute; reflexivity|].
  apply utf8_app2; [|apply is_utf8; vm_compute; reflexivity].
  induction n as [|n IH]; cbn [repeat concat]; [constructor|]. apply utf8_app2; [apply is_utf8; vm_compute; reflexivity|exact IH].
Qed.

(** ** Expanding it *)

Notation ex f := (fun n s => run E f (TNode n) s).
Lemma run_node f n s : run E (S f) (TNode n) s = expand_one (ex f) (fun name c ps s => run E f (TInvoke name c ps) s) n s.
Proof. reflexivity. Qed.
Definition word : stree := SSym (b " ") (b "a").
Definition holds (k : nat) (s : state) : Prop :=
  exists vs, get (b "x") (x_defs s) = Some (Macro [] vs) /\ map strip vs = repeat word k.

Lemma strip_sym n w v : strip n = SSym w v -> exists a, n = Sym a /\ a_ws a = w /\ a_val a = v.
Proof. destruct n; try discriminate. intros [= <- <-]. eauto. Qed.
Lemma words_stay f vs k s : map strip vs = repeat word k -> exs (ex (S f)) vs s = Ok (vs, s).
Proof.
  revert k. induction vs as [|v vs IH]; intros k H; [reflexivity|]. destruct k as [|k]; [discriminate|]. cbn [map repeat] in H.
  injection H as H1 H2. apply strip_sym in H1 as [a [-> [_ A]]]. cbn [exs]. rewrite run_node. cbn [expand_one]. rewrite A.
  change (starts_with (b "%") (b "a")) with false. cbv iota. cbn [bind]. rewrite (IH k H2). reflexivity.
Qed.
Lemma use f n w vs k s : strip n = SSym w (b "%x") -> get (b "x") (x_defs s) = Some (Macro [] vs) -> map strip vs = repeat word k ->
  run E (S (S f)) (TNode n) s = Ok (set_first_ws w vs, s).
Proof.
  intros H G W. apply strip_sym in H as [a [-> [<- A]]]. rewrite run_node. cbn [expand_one]. rewrite A.
  change (starts_with (b "%") (b "%x")) with true. change (skipn 1 (b "%x")) with (b "x"). rewrite G. cbn [m_params m_body]. rewrite (words_stay f vs k s W). reflexivity.
Qed.
Lemma spaced_words vs k : map strip vs = repeat word k -> map strip (set_first_ws (b " ") vs) = repeat word k.
Proof.
  destruct vs as [|v vs]; [auto|]. destruct k as [|k]; [discriminate|]. cbn [map repeat set_first_ws]. intros [= H1 H2].
  apply strip_sym in H1 as [a [-> [_ A]]]. cbn [set_ws strip]. rewrite H2. unfold word. destruct a; cbn in A |- *. now rewrite A.
Qed.

Lemma strip_cons n l t ts : map strip (n :: l) = t :: ts -> strip n = t /\ map strip l = ts.
Proof. intros [= H1 H2]. auto. Qed.
Lemma strip_list n w ts ew : strip n = SList w ts ew -> exists ns st es, n = Lst ns st ew es w /\ map strip ns = ts.
Proof. destruct n; try discriminate. intros [= <- H <-]. eauto. Qed.
Lemma strip_map l t ts : map strip l = t :: ts -> exists n m, l = n :: m /\ strip n = t /\ map strip m = ts.
Proof. destruct l as [|n m]; [discriminate|]. intros [= H1 H2]. eauto. Qed.
Lemma strip_nil l : map strip l = [] -> l = [].
Proof. destruct l; [auto|discriminate]. Qed.

Lemma define_run f args n s : is_call (b "define") args n ->
  run E (S (S f)) (TNode n) s = do_define (ex f) (fst (register n s)) (received args) (snd (register n s)).
Proof.
  intros [a [st [ew [es [w [-> A]]]]]]. rewrite run_node. cbn [expand_one symbol]. unfold register. rewrite A.
  change (starts_with (b "%") (b "%" ++ b "define")) with true. cbv beta iota. reflexivity.
Qed.

Lemma first_run f n s : strip n = first_tree -> exists s', run E (S (S (S f))) (TNode n) s = Ok ([], s') /\ holds 1 s'.
Proof.
  intros H. apply strip_list in H as [ns [st [es [-> H]]]].
  apply strip_map in H as [d [l [-> [D H]]]]. apply strip_map in H as [x [l' [-> [X H]]]].
  apply strip_map in H as [a [l'' [-> [A H]]]]. apply strip_nil in H as ->.
  apply strip_sym in D as [d' [-> [_ D]]]. apply strip_sym in X as [x' [-> [XW X]]].
  rewrite (define_run (S f) [Sym x'; a]) by (do 5 eexists; split; [reflexivity|exact D]).
  cbn [received leading_ws]. rewrite XW. change (has LF (b " ")) with false. cbv iota. unfold do_define. cbn [set_ws symbol].
  set (s1 := snd _). rewrite (words_stay f [a] 1 s1) by (cbn; now rewrite A). cbn [bind]. unfold create_macro.
  cbn [List.filter bind]. eexists. split; [reflexivity|]. exists [a]. split; [|cbn; now rewrite A].
  cbn [x_defs set_defs]. destruct x'; cbn in X |- *. rewrite X. apply get_put_same.
Qed.
Lemma double_run f n s k : strip n = double_tree -> holds k s ->
  exists s', run E (S (S (S (S f)))) (TNode n) s = Ok ([], s') /\ holds (2 * k) s'.
Proof.
  intros H [vs [G W]]. apply strip_list in H as [ns [st [es [-> H]]]].
  apply strip_map in H as [d [l [-> [D H]]]]. apply strip_map in H as [x [l' [-> [X H]]]].
  apply strip_map in H as [y [l'' [-> [Y H]]]]. apply strip_map in H as [z [l3 [-> [Z H]]]]. apply strip_nil in H as ->.
  apply strip_sym in D as [d' [-> [_ D]]]. apply strip_sym in X as [x' [-> [XW X]]].
  rewrite (define_run (S (S f)) [Sym x'; y; z]) by (do 5 eexists; split; [reflexivity|exact D]).
  cbn [received leading_ws]. rewrite XW. change (has LF (b " ")) with false. cbv iota. unfold do_define. cbn [set_ws symbol].
  set (s1 := snd _). assert (G1 : get (b "x") (x_defs s1) = Some (Macro [] vs)) by exact G. cbn [exs].
  rewrite (use f y (b " ") vs k s1 Y G1 W). cbn [bind]. rewrite (use f z (b " ") vs k s1 Z G1 W). cbn [bind]. unfold create_macro.
  cbn [List.filter bind]. eexists. split; [reflexivity|]. eexists. split.
  - cbn [x_defs set_defs]. destruct x'; cbn in X |- *. rewrite X. apply get_put_same.
  - change [" "%char] with (b " "). rewrite app_nil_r, map_app, (spaced_words vs k W). replace (2 * k) with (k + k) by lia. symmetry. apply repeat_app.
Qed.

Lemma doubles_run f n : forall ns s k, map strip ns = repeat double_tree n ++ [last_tree] -> holds k s ->
  exists vs s', exs (ex (S (S (S (S f))))) ns s = Ok (set_first_ws [] vs, s') /\ map strip vs = repeat word (2 ^ n * k).
Proof.
  induction n as [|n IH]; intros ns s k H HO; cbn [repeat List.app] in H; apply strip_map in H as [d [l [-> [D H]]]].
  - apply strip_nil in H as ->. destruct HO as [vs [G W]]. exists vs, s. cbn [exs].
    rewrite (use (S (S f)) d [] vs k s D G W). cbn [bind]. rewrite app_nil_r. split; [reflexivity|]. rewrite W. f_equal. cbn. lia.
  - destruct (double_run f d s k D HO) as [s1 [R H1]]. destruct (IH l s1 (2 * k) H H1) as [vs [s' [R2 W]]].
    exists vs, s'. cbn [exs]. rewrite R. cbn [bind]. rewrite R2. cbn [bind]. split; [reflexivity|]. rewrite W. f_equal. cbn. lia.
Qed.

Theorem doubling_run f path n : exists ns s, expand E (4 + f) path (doubling n) = Ok (ns, s) /\
  map strip ns = SSym [] (b "a") :: repeat (SSym (b " ") (b "a")) (2 ^ n - 1).
Proof.
  destruct (proj2 (parse_grammar un 0 _ _ (bomb_utf8 n)) (reads_bomb n)) as [t [P H]].
  apply strip_map in H as [d [l [-> [D H]]]].
  destruct (first_run (S f) d (initial path (doubling n)) D) as [s1 [R1 H1]].
  destruct (doubles_run f n l s1 1 H H1) as [vs [s' [R W]]].
  exists (set_first_ws [] vs), s'. split.
  - unfold expand. rewrite P. cbn [bind]. unfold expand_nodes. change (expand_node E (4 + f)) with (ex (S (S (S (S f))))). cbn [exs].
    rewrite R1. cbn [bind]. rewrite R. reflexivity.
  - rewrite Nat.mul_1_r in W. pose proof (Nat.pow_nonzero 2 n ltac:(lia)) as Z. destruct (2 ^ n) as [|k]; [lia|]. cbn [repeat] in W.
    apply strip_map in W as [v [vs' [-> [V W]]]]. apply strip_sym in V as [a [-> [_ A]]]. cbn [set_first_ws map set_ws strip].
    rewrite W. cbn [Nat.sub]. rewrite Nat.sub_0_r. f_equal. destruct a; cbn in A |- *. now rewrite A.
Qed.
End Growth.

Lemma words_text ns k : map strip ns = repeat word k -> text_gen ns = concat (repeat (b " a") k).
Proof.
  revert k. induction ns as [|n ns IH]; intros [|k] H; try discriminate; [reflexivity|]. cbn [map repeat] in H. injection H as H1 H2.
  apply strip_sym in H1 as [a [-> [W A]]]. cbn [text_gen flat_map text_node]. rewrite W, A. cbn [repeat concat].
  change (flat_map text_node ns) with (text_gen ns). rewrite (IH k H2). reflexivity.
Qed.
Lemma doubling_length n : length (doubling n) = 15 + 17 * n.
Proof.
  unfold doubling. rewrite !app_length. assert (L : length (concat (repeat (b "(%define x %x %x)") n)) = 17 * n).
  { induction n as [|n IH]; [reflexivity|]. cbn [repeat concat]. rewrite app_length, IH. change (length (b "(%define x %x %x)")) with 17. lia. }
  rewrite L. change (length (b "(%define x a)")) with 13. change (length (b "%x")) with 2. lia.
Qed.

(** ** Powers of two exceed polynomials *)

Lemma exceeds c k : exists n, c * (15 + 17 * n) ^ k < 2 ^ n.
Proof.
  set (j := c + k + 2). exists (2 ^ (3 * j)). set (m := 3 * j).
  assert (J : j < 2 ^ j) by (apply Nat.pow_gt_lin_r; lia).
  assert (B : c + k * (m + 5) <= 2 ^ m).
  { unfold m. replace (3 * j) with (j + j + j) at 2 by lia. rewrite !Nat.pow_add_r.
    assert (C : (j + 1) * (j + 1) * (j + 1) <= 2 ^ j * 2 ^ j * 2 ^ j) by (apply Nat.mul_le_mono; [apply Nat.mul_le_mono|]; lia).
    enough (c + k * (3 * j + 5) <= (j + 1) * (j + 1) * (j + 1)) by lia.
    assert (c + k * (3 * j + 5) <= j + j * (3 * j + 5)) by (assert (k <= j) by lia; nia).
    assert (2 <= j) by lia. nia. }
  assert (P : 15 + 17 * 2 ^ m <= 2 ^ (m + 5)).
  { rewrite Nat.pow_add_r. change (2 ^ 5) with 32. pose proof (Nat.pow_nonzero 2 m ltac:(lia)). lia. }
  apply (Nat.pow_le_mono_l _ _ k) in P. rewrite <- Nat.pow_mul_r in P.
  assert (Q : c < 2 ^ c) by (apply Nat.pow_gt_lin_r; lia).
  apply Nat.lt_le_trans with (2 ^ c * 2 ^ ((m + 5) * k)).
  - pose proof (Nat.pow_nonzero 2 ((m + 5) * k) ltac:(lia)). nia.
  - rewrite <- Nat.pow_add_r. apply Nat.pow_le_mono_r; [lia|]. lia.
Qed.
