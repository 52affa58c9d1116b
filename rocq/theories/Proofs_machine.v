(** * Proof of C78: programs can simulate counter machines *)

From Coq Require Import String List Ascii Bool Arith Lia.
From Verif Require Import Text Utf8 Res Ast Env Scope State Parser Args Bind Expander
  Spec_grammar Spec_tree Spec_machine Proofs_text Proofs_print Proofs_parser Proofs_comments Proofs_run Proofs_loop.
Import ListNotations.

(** ** The program as a tree *)

Fixpoint spaced (l : list bytes) : bytes :=
  match l with [] => [] | [x] => x | x :: l' => x ++ b " " ++ spaced l' end.
Fixpoint stext (t : sexp) : bytes :=
  match t with
  | XSym v => v
  | XList l => b "(" ++ spaced (map stext l) ++ b ")"
  | _ => []
  end.

Definition goto_tree (M : machine) (i : nat) (x y : sexp) : sexp := XList [XSym (b "%" ++ label M i); x; y].
Definition var_a : sexp := XSym (b "%a").
Definition var_b : sexp := XSym (b "%b").
Definition listed (x : sexp) : sexp := XList [XSym (b "%list"); x].
Definition choice (x : sexp) (v : bytes) (zero next : sexp) : sexp :=
  XList [XSym (b "%match"); x; XList [XList []; zero]; XList [XList [XSym v]; next]].
Definition action_tree (M : machine) (i : option instruction) : list sexp :=
  match i with
  | None => [var_a; var_b]
  | Some (Add First j) => [goto_tree M j (listed var_a) var_b]
  | Some (Add Second j) => [goto_tree M j var_a (listed var_b)]
  | Some (Take First j z) => [choice var_a (b "a") (goto_tree M z var_a var_b) (goto_tree M j var_a var_b)]
  | Some (Take Second j z) => [choice var_b (b "b") (goto_tree M z var_a var_b) (goto_tree M j var_a var_b)]
  end.
Definition macro_tree (name : bytes) (body : list sexp) : sexp :=
  XList (XSym (b "%define") :: XList [XSym name; XSym (b "a"); XSym (b "b")] :: body).
Definition table (M : machine) : list (bytes * list sexp) :=
  (b "h", action_tree M None) ::
  map (fun '(i, a) => (label M i, action_tree M (Some a))) (combine (seq 0 (length M)) M).
Definition macros (l : list (bytes * list sexp)) : list sexp := map (fun '(q, t) => macro_tree q t) l.

Lemma tower_text n : stext (tower n) = number_text n.
Proof.
  assert (R : forall (c : ascii) k, repeat c (S k) = repeat c k ++ [c]).
  { intros c. induction k as [|k IH]; [reflexivity|]. cbn [repeat List.app] in IH |- *. now rewrite <- IH. }
  induction n as [|n IH]; [reflexivity|]. cbn [tower stext map spaced]. rewrite IH. unfold number_text.
  rewrite (R ")"%char (S n)), <- app_assoc. reflexivity.
Qed.
Lemma goto_text M i x y : stext (goto_tree M i x y) = goto M i (stext x) (stext y).
Proof. unfold goto, goto_tree. cbn [stext map spaced]. now rewrite <- !app_assoc. Qed.
Lemma action_text M i : spaced (map stext (action_tree M (Some i))) = action M i.
Proof.
  destruct i as [[] j|[] j z]; cbn [action_tree map spaced action]; try apply goto_text;
    unfold choice; cbn [stext map spaced]; rewrite !goto_text; cbn [var_a var_b stext]; now rewrite <- !app_assoc.
Qed.
Lemma macro_tree_text q t x : t <> [] -> spaced (map stext t) = x -> stext (macro_tree q t) = macro_text q x.
Proof.
  intros N <-. unfold macro_tree, macro_text. destruct t as [|u t]; [congruence|]. cbn [stext map].
  change (spaced (b "%define" :: ?y :: ?z :: ?r)) with (b "%define" ++ b " " ++ y ++ b " " ++ spaced (z :: r)).
  cbn [spaced]. now rewrite <- !app_assoc.
Qed.
Lemma macros_text l : concat (map (fun '(i, a) => macro_text (label l i) (action l a)) (combine (seq 0 (length l)) l)) =
  concat (map stext (macros (map (fun '(i, a) => (label l i, action_tree l (Some a))) (combine (seq 0 (length l)) l)))).
Proof.
  generalize (combine (seq 0 (length l)) l). induction l0 as [|[i a] r IH]; [reflexivity|]. unfold macros in IH |- *. cbn [map concat].
  rewrite IH. f_equal. symmetry. apply macro_tree_text; [|apply action_text]. destruct a as [[]|[]]; discriminate.
Qed.
Lemma simulator_text M m n : simulator M m n =
  concat (map stext (macros (table M))) ++ stext (goto_tree M 0 (tower m) (tower n)).
Proof.
  unfold simulator. rewrite goto_text, !tower_text, macros_text. unfold table, macros. cbn [map concat].
  rewrite (macro_tree_text (b "h") (action_tree M None) (b "%a %b")) by (discriminate || reflexivity). now rewrite <- app_assoc.
Qed.

(** ** Reading it *)

Section Reading.
Variable un : bytes -> option bytes.

Definition letter (c : ascii) : bool := (97 <=? nat_of_ascii c) && (nat_of_ascii c <=? 122) || ch c "%".
Definition word (v : bytes) : Prop := v <> [] /\ forallb letter v = true.
Inductive words : sexp -> Prop :=
| w_sym : forall v, word v -> words (XSym v)
| w_list : forall l, Forall words l -> words (XList l).

Lemma letter_plain c : letter c = true -> symbol_start c /\ plain c /\ ch c BS = false /\ nat_of_ascii c <= 127.
Proof.
  destruct c as [[] [] [] [] [] [] [] []]; intros L; vm_compute in L; try discriminate L; clear L;
    (split; [|split; [|split; [reflexivity|apply Nat.leb_le; vm_compute; reflexivity]]]);
    unfold symbol_start, plain, number_start, digit, delimiter, blank_char;
    repeat split; try discriminate;
    intros H; decompose [or and] H; try discriminate;
    repeat match goal with X : _ <= _ |- _ => apply Nat.leb_le in X; vm_compute in X; try discriminate X; clear X end.
Qed.
Lemma letters_ident v : forallb letter v = true -> Ident v /\ unbackslash v = v /\ utf8 v.
Proof.
  induction v as [|c v IH]; cbn [forallb]; intros H; [repeat split; constructor|].
  apply andb_true_iff in H as [C H]. destruct (IH H) as [I [U V]]. destruct (letter_plain c C) as [_ [P [B N]]].
  split; [now constructor|]. split; [|now apply utf8_ascii_cons]. unfold unbackslash in *. cbn [filter]. rewrite B. cbn [negb]. now rewrite U.
Qed.

Lemma blank0 : Blank [] []. Proof. constructor. constructor. Qed.
Lemma blank1 : Blank (b " ") (b " "). Proof. constructor. constructor; [|constructor]. unfold blank_char. auto. Qed.
Lemma stops_space r : stops (b " " ++ r). Proof. cbn. unfold delimiter, blank_char. auto. Qed.
Lemma stops_close r : stops (b ")" ++ r). Proof. cbn. unfold delimiter. auto. Qed.
Lemma stops_open r : stops (b "(" ++ r). Proof. cbn. unfold delimiter. auto. Qed.

Lemma reads : forall t, words t -> forall bl w rest, Blank bl w -> stops rest ->
  exists e, sshape e = t /\ Expr un (bl ++ stext t ++ rest) e rest.
Proof.
  fix IH 2. intros t H bl w rest B S. destruct H as [v [N L]|l F].
  - destruct v as [|c v]; [congruence|]. destruct (letters_ident _ L) as [I [U _]].
    cbn [forallb] in L. apply andb_true_iff in L as [L _]. destruct (letter_plain c L) as [SS _].
    exists (SSym w (unbackslash (c :: v))). split; [cbn [sshape]; now rewrite U|]. now apply e_sym.
  - assert (X : forall l, Forall words l -> forall bl w rest, Blank bl w -> exists es ew, map sshape es = l /\
      Items un (bl ++ spaced (map stext l) ++ b ")" ++ rest) es ew rest).
    { clear - IH. fix IL 2. intros l F bl w rest B. destruct F as [|t l T F].
      - exists [], w. split; [reflexivity|]. now apply (i_end un bl w).
      - destruct l as [|u l].
        + destruct (IH t T bl w (b ")" ++ rest) B (stops_close _)) as [e [A X]].
          exists [e], []. cbn [map spaced]. split; [now rewrite A|]. eapply i_cons; [exact X|]. exact (i_end un [] [] rest blank0).
        + destruct (IL _ F (b " ") (b " ") rest blank1) as [es [ew [A X]]].
          destruct (IH t T bl w (b " " ++ spaced (map stext (u :: l)) ++ b ")" ++ rest) B (stops_space _)) as [e [A' X']].
          exists (e :: es), ew. cbn [map] in *. split; [now rewrite A, A'|].
          change (spaced (stext t :: stext u :: map stext l)) with (stext t ++ b " " ++ spaced (stext u :: map stext l)).
          rewrite <- !app_assoc. eapply i_cons; [exact X'|exact X]. }
    destruct (X l F [] [] rest blank0) as [es [ew [A Y]]]. exists (SList w es ew). cbn [sshape stext]. split; [now rewrite A|].
    rewrite <- !app_assoc. now apply (e_list un bl w).
Qed.
Lemma reads_program l u : Forall words l -> Forall (fun t => exists x, t = XList x) (l ++ [u]) -> words u ->
  exists es, map sshape es = l ++ [u] /\ Program un (concat (map stext l) ++ stext u) es.
Proof.
  intros F O W. induction F as [|t l T F IH]; cbn [List.app map concat] in *.
  - destruct (reads u W [] [] [] blank0 I) as [e [A X]]. rewrite app_nil_r in X. exists [e]. split; [cbn; now rewrite A|].
    eapply p_cons; [exact X|]. apply p_end, (trail_blank [] []), blank0.
  - inversion O as [|? ? _ O']; subst. destruct (IH O') as [es [A P]].
    assert (S : stops (concat (map stext l) ++ stext u)).
    { destruct l as [|y l]; cbn [List.app] in O'; inversion O' as [|? ? [x ->] _]; subst; cbn [map concat List.app stext];
        rewrite <- ?app_assoc; apply stops_open. }
    destruct (reads t T [] [] _ blank0 S) as [e [A' X]]. exists (e :: es). split; [cbn; now rewrite A, A'|].
    rewrite <- app_assoc. eapply p_cons; [exact X|exact P].
Qed.
Lemma words_utf8 : forall t, words t -> utf8 (stext t).
Proof.
  fix IH 2. intros t H. destruct H as [v [N L]|l F]; [apply letters_ident, L|]. cbn [stext].
  apply utf8_app2; [apply is_utf8; reflexivity|]. apply utf8_app2; [|apply is_utf8; reflexivity].
  revert l F. fix IL 2. intros l F. destruct F as [|t l T F]; [constructor|]. cbn [map]. destruct l as [|u l]; [exact (IH t T)|].
  change (spaced (stext t :: map stext (u :: l))) with (stext t ++ b " " ++ spaced (map stext (u :: l))).
  apply utf8_app2; [exact (IH t T)|]. apply utf8_app2; [apply is_utf8; reflexivity|]. exact (IL _ F).
Qed.
End Reading.

Lemma label_word M i : forallb letter (label M i) = true /\ label M i <> [].
Proof.
  unfold label. destruct (i <? length M); [|split; [reflexivity|discriminate]]. split; [|discriminate].
  generalize (S i). induction n; [reflexivity|]. cbn [repeat forallb]. now rewrite IHn.
Qed.
Lemma goto_words M i x y : words x -> words y -> words (goto_tree M i x y).
Proof.
  intros X Y. destruct (label_word M i) as [L N]. apply w_list. apply List.Forall_cons; [|repeat (apply List.Forall_cons; [assumption|]); apply List.Forall_nil].
  apply w_sym. split; [discriminate|]. cbn [b list_ascii_of_string List.app forallb]. exact L.
Qed.
Ltac worded := repeat first [assumption | apply goto_words | apply List.Forall_cons | apply List.Forall_nil | apply w_sym; split; [discriminate|reflexivity] | apply w_list].
Lemma tower_words n : words (tower n).
Proof. induction n; cbn [tower]; worded. Qed.
Lemma action_words M i : Forall words (action_tree M i).
Proof.
  destruct i as [[[] j|[] j z]|]; cbn [action_tree]; unfold choice, listed, var_a, var_b; worded.
Qed.
Lemma table_words M : Forall words (macros (table M)).
Proof.
  unfold macros. apply List.Forall_forall. intros t H. apply in_map_iff in H as [[q u] [<- H]].
  assert (X : word q /\ Forall words u).
  { destruct H as [H|H].
    - injection H as <- <-. split; [split; [discriminate|reflexivity]|apply (action_words M None)].
    - apply in_map_iff in H as [[i a] [Q _]]. injection Q as <- <-. split; [|exact (action_words M (Some a))].
      destruct (label_word M i). split; assumption. }
  destruct X as [Q U]. apply w_list. apply List.Forall_cons; [worded|]. apply List.Forall_cons; [|exact U].
  apply w_list. apply List.Forall_cons; [now apply w_sym|]. worded.
Qed.

Lemma simulator_utf8 M m n : utf8 (simulator M m n).
Proof.
  rewrite simulator_text. apply utf8_app2; [|apply words_utf8, goto_words; apply tower_words].
  pose proof (table_words M) as F. induction F as [|t l T F IH]; [constructor|]. cbn [map concat]. apply utf8_app2; [now apply words_utf8|exact IH].
Qed.
Lemma simulator_parse un M m n : exists tree, parse un 0 (simulator M m n) = Ok tree /\
  map shape tree = macros (table M) ++ [goto_tree M 0 (tower m) (tower n)].
Proof.
  destruct (reads_program un (macros (table M)) (goto_tree M 0 (tower m) (tower n))) as [es [A P]].
  - apply table_words.
  - apply List.Forall_forall. intros t H. apply in_app_or in H as [H|[<-|[]]]; [|eexists; reflexivity].
    apply in_map_iff in H as [[q u] [<- _]]. eexists; reflexivity.
  - apply goto_words; apply tower_words.
  - rewrite <- simulator_text in P. apply (parse_grammar un 0 _ _ (simulator_utf8 M m n)) in P as [tree [Q S]].
    exists tree. split; [exact Q|]. rewrite <- A, <- S. symmetry. apply sshape_strips.
Qed.

(** ** Running it *)

Section Running.
Variable E : env.
Notation ex f := (fun n s => run E f (TNode n) s).
Notation iv f := (fun name c ps s => run E f (TInvoke name c ps) s).
Lemma run_node f n s : run E (S f) (TNode n) s = expand_one (ex f) (iv f) n s.
Proof. reflexivity. Qed.

Lemma shape_sym n v : shape n = XSym v -> exists a, n = Sym a /\ a_val a = v.
Proof. destruct n; try discriminate. intros [= <-]. eauto. Qed.
Lemma shape_list n l : shape n = XList l -> exists ns st ew es w, n = Lst ns st ew es w /\ map shape ns = l.
Proof. destruct n; try discriminate. intros [= <-]. do 5 eexists. split; reflexivity. Qed.
Lemma shape_cons l t ts : map shape l = t :: ts -> exists n m, l = n :: m /\ shape n = t /\ map shape m = ts.
Proof. destruct l as [|n m]; [discriminate|]. intros [= H1 H2]. eauto. Qed.
Lemma shape_nil l : map shape l = [] -> l = [].
Proof. destruct l; [auto|discriminate]. Qed.
Lemma shape_ws w n : shape (set_ws w n) = shape n.
Proof. destruct n; reflexivity. Qed.
Lemma shape_trim l : map shape (trim_first l) = map shape l.
Proof. destruct l as [|n l]; [reflexivity|]. cbn [trim_first map]. destruct (has LF (leading_ws n)); [reflexivity|]. now rewrite shape_ws. Qed.

(** A node whose expansion ends, with a budget that is large enough. *)
Definition ends (e : node) (s : state) (r : list node * state) : Prop := exists f, run E f (TNode e) s = Ok r.
Lemma ends_ge e s r : ends e s r -> exists F, forall f, F <= f -> run E f (TNode e) s = Ok r.
Proof. intros [F H]. exists F. intros f L. destruct (run_le E F f (TNode e) s L) as [X|X]; congruence. Qed.
Lemma ends_any e s r : ends e s r -> forall f, run E f (TNode e) s = OutOfFuel \/ run E f (TNode e) s = Ok r.
Proof.
  intros H f. destruct (ends_ge _ _ _ H) as [F G]. pose proof (G (Nat.max f F) ltac:(lia)) as Q.
  destruct (run_le E f (Nat.max f F) (TNode e) s ltac:(lia)) as [X|X]; [auto|right; congruence].
Qed.

Lemma tower_list n v : shape v = tower n -> exists ns st ew es w, v = Lst ns st ew es w.
Proof. intros H. destruct n; cbn [tower] in H; apply shape_list in H as [ns [st [ew [es [w [-> _]]]]]]; eauto 6. Qed.
Lemma tower_ends n : forall v s, shape v = tower n -> ends v s ([v], s).
Proof.
  induction n as [|n IH]; intros v s H; cbn [tower] in H; apply shape_list in H as [ns [st [ew [es [w [-> H]]]]]].
  - apply shape_nil in H as ->. exists 1. reflexivity.
  - apply shape_cons in H as [u [m [-> [U H]]]]. apply shape_nil in H as ->. destruct (IH u s U) as [f R]. exists (S f).
    rewrite run_node. destruct (tower_list n u U) as [ns [st' [ew' [es' [w' ->]]]]]. cbn [expand_one symbol]. cbn [exs]. rewrite R. reflexivity.
Qed.

Lemma call_run f e a q args st ew es w s : e = Lst (Sym a :: args) st ew es w -> a_val a = b "%" ++ q ->
  run E (S (S f)) (TNode e) s = invoke E (ex f) (iv f) q (fst (register e s)) (trim_first args) (snd (register e s)).
Proof.
  intros -> A. rewrite run_node. cbn [expand_one symbol]. unfold register. rewrite A.
  change (starts_with (b "%") (b "%" ++ q)) with true. cbv beta iota. reflexivity.
Qed.

(** The expressions that stand for numbers in the program. *)
Inductive arg (d : scope) : sexp -> nat -> Prop :=
| arg_tower : forall n, arg d (tower n) n
| arg_var : forall x v n, get x d = Some (Macro [] [v]) -> shape v = tower n -> arg d (XSym (b "%" ++ x)) n
| arg_list : forall t n, arg d t n -> arg d (listed t) (S n).
Lemma touch_defs c s : x_defs (touch c s) = x_defs s.
Proof. unfold touch. destruct (_ =? _); reflexivity. Qed.
Lemma arg_ends d t k : arg d t k -> forall e s, shape e = t -> x_defs s = d ->
  exists v s', ends e s ([v], s') /\ shape v = tower k /\ x_defs s' = d.
Proof.
  intros A. induction A as [n|x v n G V|t n A IH]; intros e s H D.
  - exists e, s. split; [now apply (tower_ends n)|auto].
  - apply shape_sym in H as [a [-> H]]. exists (set_ws (a_ws a) v), s. split; [|split; [now rewrite shape_ws|exact D]].
    destruct (tower_ends n v s V) as [f R]. exists (S f). rewrite run_node. cbn [expand_one]. rewrite H.
    change (starts_with (b "%") (b "%" ++ x)) with true. change (skipn 1 (b "%" ++ x)) with x. rewrite D, G. cbn [m_params m_body exs]. rewrite R. reflexivity.
  - apply shape_list in H as [ns [st [ew [es [w [-> H]]]]]]. apply shape_cons in H as [l [m [-> [L H]]]].
    apply shape_cons in H as [u [m' [-> [U H]]]]. apply shape_nil in H as ->. apply shape_sym in L as [a [-> L]].
    set (e := Lst _ _ _ _ _). pose proof (shape_trim [u]) as T. cbn [map] in T. rewrite U in T.
    apply shape_cons in T as [u' [m [T [U' H]]]]. apply shape_nil in H as ->.
    destruct (IH u' (snd (register e s)) U' D) as [v [s' [[f R] [V D']]]].
    exists (Lst [v] st ew es w), (touch (fst (register e s)) s'). split; [|split; [cbn [shape map tower]; now rewrite V|now rewrite touch_defs]].
    exists (S (S f)). rewrite (call_run f e a (b "list") [u] st ew es w s eq_refl L). unfold invoke.
    change (find_builtin (b "list")) with (Some BList). cbn [run_builtin]. unfold do_list. rewrite T. cbn [exs]. rewrite R. reflexivity.
Qed.

(** ** Binding *)

Lemma named_none keys s : bind_named keys [] [] s = ([], s).
Proof. induction keys as [|k keys IH]; [reflexivity|]. cbn [bind_named assoc named_remove List.filter]. exact IH. Qed.
Lemma entries_none keys : entries keys [] = [].
Proof. unfold entries. induction keys as [|k keys IH]; [reflexivity|]. cbn [flat_map assoc]. exact IH. Qed.
Lemma bind_rest_none seed s : bind_rest E seed (Progress [] [] [] None None) s = Ok s.
Proof.
  unfold bind_rest. cbn [leftover b_rhs b_rhs_named b_lhs_named b_rest b_rest_kw rev bind]. rewrite named_none. cbn [map].
  rewrite entries_none. reflexivity.
Qed.
Definition is_list (v : node) : Prop := exists ns st ew es w, v = Lst ns st ew es w.
Lemma bind_two st pa pb v w s : a_val pa = b "a" -> a_val pb = b "b" -> is_list v -> is_list w ->
  exists s', bind_list E st [Sym pa; Sym pb] [v; w] s = Ok s' /\
    x_defs s' = put (b "b") (variable [w]) (put (b "a") (variable [v]) (x_defs s)).
Proof.
  intros A B (?&?&?&?&?&->) (?&?&?&?&?&->). unfold bind_list, bind_list_with. cbn [bind_positional]. unfold is_rest_kw, is_rest. cbn [symbol]. rewrite A, B.
  change (starts_with (b "&&") (b "a")) with false. change (starts_with (b "&") (b "a")) with false.
  change (starts_with (b "&&") (b "b")) with false. change (starts_with (b "&") (b "b")) with false. cbv iota.
  cbn [next_positional b_rhs b_rhs_named b_lhs_named b_rest b_rest_kw bind_node]. rewrite A, B. cbn [bind]. rewrite bind_rest_none.
  eexists. split; reflexivity.
Qed.
Lemma bind_one pa x v s p1 p2 p3 p4 q1 q2 q3 q4 : a_val pa = x -> starts_with (b "&") x = false -> starts_with (b "&&") x = false -> is_list v ->
  exists s', bind_node E (Lst [Sym pa] p1 p2 p3 p4) (Lst [v] q1 q2 q3 q4) s = Ok s' /\
    x_defs s' = put x (variable [v]) (x_defs s).
Proof.
  intros A B B2 (?&?&?&?&?&->). cbn [bind_node]. unfold bind_list_with. cbn [bind_positional]. unfold is_rest_kw, is_rest. cbn [symbol]. rewrite A.
  rewrite B, B2. cbn [next_positional b_rhs b_rhs_named b_lhs_named b_rest b_rest_kw bind_node]. rewrite A. cbn [bind]. rewrite bind_rest_none.
  eexists. split; reflexivity.
Qed.
Lemma bind_empty s p1 p2 p3 p4 q1 q2 q3 q4 : 
  exists s', bind_node E (Lst [] p1 p2 p3 p4) (Lst [] q1 q2 q3 q4) s = Ok s' /\ x_defs s' = x_defs s.
Proof.
  cbn [bind_node]. unfold bind_list_with. cbn [bind_positional bind]. rewrite bind_rest_none. eexists. split; reflexivity.
Qed.
Lemma bind_excess v s p1 p2 p3 p4 q1 q2 q3 q4 : is_list v ->
  exists e, bind_node E (Lst [] p1 p2 p3 p4) (Lst [v] q1 q2 q3 q4) s = Err e.
Proof. intros (?&?&?&?&?&->). cbn. eexists. reflexivity. Qed.

(** ** One node leads to another *)

Definition wrap (g : state -> state) (r : out) : out := let* '(ns, s) := r in Ok (ns, g s).
Definition enters (e : node) (s : state) (body : list node) (s2 : state) : Prop := exists g,
  (forall f, run E (S (S f)) (TNode e) s = OutOfFuel \/ run E (S (S f)) (TNode e) s = wrap g (exs (ex f) body s2)) /\
  exists F, forall f, F <= f -> run E (S (S f)) (TNode e) s = wrap g (exs (ex f) body s2).
Definition goes (e : node) (s : state) (e' : node) (s' : state) : Prop := exists g k, 2 <= k /\
  (forall f, run E (k + f) (TNode e) s = OutOfFuel \/ run E (k + f) (TNode e) s = wrap g (run E f (TNode e') s')) /\
  exists F, forall f, F <= f -> run E (k + f) (TNode e) s = wrap g (run E f (TNode e') s').
Lemma exs_one f e s : exs (ex f) [e] s = run E f (TNode e) s.
Proof. cbn [exs]. destruct (run E f (TNode e) s) as [[ns s']| | | |]; try reflexivity. cbn. now rewrite app_nil_r. Qed.
Lemma enters_goes e s e' s' : enters e s [e'] s' -> goes e s e' s'.
Proof.
  intros [g [A [F B]]]. exists g, 2. split; [lia|]. split.
  - intros f. specialize (A f). rewrite exs_one in A. exact A.
  - exists F. intros f L. specialize (B f L). rewrite exs_one in B. exact B.
Qed.
Lemma wrap_wrap g h r : wrap g (wrap h r) = wrap (fun s => g (h s)) r.
Proof. destruct r as [[ns s]| | | |]; reflexivity. Qed.
Lemma goes_goes e s e1 s1 e2 s2 : goes e s e1 s1 -> goes e1 s1 e2 s2 -> goes e s e2 s2.
Proof.
  intros [g [k [K [A [F B]]]]] [h [l [L [C [G D]]]]]. exists (fun s => g (h s)), (k + l). split; [lia|]. split.
  - intros f. rewrite <- Nat.add_assoc. destruct (A (l + f)) as [X|X]; [auto|]. rewrite X. destruct (C f) as [Y|Y]; rewrite Y; [left; reflexivity|].
    right. apply wrap_wrap.
  - exists (Nat.max F G). intros f M. rewrite <- Nat.add_assoc, B, D by lia. apply wrap_wrap.
Qed.
Lemma goes_ends e s e' s' ns t : goes e s e' s' -> ends e' s' (ns, t) -> exists t', ends e s (ns, t').
Proof.
  intros [g [k [_ [_ [F B]]]]] H. destruct (ends_ge _ _ _ H) as [G R]. exists (g t), (k + Nat.max F G).
  rewrite B, R by lia. reflexivity.
Qed.

(** Calling a macro. *)
Lemma call_enters q e s t1 t2 m n ps body : shape e = XList [XSym (b "%" ++ q); t1; t2] -> find_builtin q = None ->
  get q (x_defs s) = Some (Macro ps body) -> map shape ps = [XSym (b "a"); XSym (b "b")] ->
  arg (x_defs s) t1 m -> arg (x_defs s) t2 n ->
  exists v w s2, shape v = tower m /\ shape w = tower n /\
    x_defs s2 = put (b "b") (variable [w]) (put (b "a") (variable [v]) (x_defs s)) /\ enters e s body s2.
Proof.
  intros H NB G P A1 A2. apply shape_list in H as [ns [st [ew [es [w0 [-> H]]]]]]. apply shape_cons in H as [l [r [-> [L H]]]].
  apply shape_sym in L as [a [-> L]]. set (e := Lst _ _ _ _ _). pose proof (shape_trim r) as T. rewrite H in T.
  apply shape_cons in T as [u1 [r1 [T [U1 R1]]]]. apply shape_cons in R1 as [u2 [r2 [-> [U2 R2]]]]. apply shape_nil in R2 as ->.
  apply shape_cons in P as [pa [r3 [-> [PA P]]]]. apply shape_cons in P as [pb [r4 [-> [PB P]]]]. apply shape_nil in P as ->.
  apply shape_sym in PA as [pa' [-> PA]]. apply shape_sym in PB as [pb' [-> PB]].
  destruct (arg_ends _ _ _ A1 u1 (snd (register e s)) U1 eq_refl) as [v [s1 [E1 [V D1]]]].
  destruct (arg_ends _ _ _ A2 u2 s1 U2 D1) as [w [s2 [E2 [W D2]]]].
  destruct (bind_two (call_site (fst (register e s))) pa' pb' v w (State (x_defs s2) (vec_clone (x_vec s2)) (x_world s2)) PA PB
    (tower_list _ _ V) (tower_list _ _ W)) as [s3 [BI D3]].
  assert (G2' : get q (x_defs s2) = Some (Macro [Sym pa'; Sym pb'] body)) by (rewrite D2; exact G).
  exists v, w, s3. split; [exact V|]. split; [exact W|]. split; [rewrite D3; cbn [x_defs]; now rewrite D2|].
  exists (fun s' => State (x_defs s2) (x_vec s2) (free_from (length (g_sources (x_world s2))) (x_world s'))).
  assert (X : forall f, run E f (TNode u1) (snd (register e s)) = Ok ([v], s1) -> run E f (TNode u2) s1 = Ok ([w], s2) ->
    run E (S (S f)) (TNode e) s = wrap (fun s' => State (x_defs s2) (x_vec s2) (free_from (length (g_sources (x_world s2))) (x_world s'))) (exs (ex f) body s3)).
  { intros f Q1 Q2. rewrite (call_run f e a q r st ew es w0 s eq_refl L). unfold invoke. rewrite NB. unfold call_macro. rewrite T. cbn [exs].
    rewrite Q1. cbn [bind]. rewrite Q2. cbn [bind List.app]. rewrite G2'. unfold apply_macro, in_frame. cbn [m_params m_body].
    rewrite BI. cbn [bind]. unfold wrap. destruct (exs (ex f) body s3) as [[ns s']| | | |]; reflexivity. }
  split.
  - intros f. destruct (ends_any _ _ _ E1 f) as [Q1|Q1].
    { left. rewrite (call_run f e a q r st ew es w0 s eq_refl L). unfold invoke. rewrite NB. unfold call_macro. rewrite T. cbn [exs]. rewrite Q1. reflexivity. }
    destruct (ends_any _ _ _ E2 f) as [Q2|Q2].
    { left. rewrite (call_run f e a q r st ew es w0 s eq_refl L). unfold invoke. rewrite NB. unfold call_macro. rewrite T. cbn [exs]. rewrite Q1. cbn [bind]. rewrite Q2. reflexivity. }
    right. now apply X.
  - destruct (ends_ge _ _ _ E1) as [F1 G1]. destruct (ends_ge _ _ _ E2) as [F2 G2]. exists (Nat.max F1 F2). intros f L'. apply X; [apply G1|apply G2]; lia.
Qed.

(** Looking at a counter. *)
Lemma pattern_ends p x s : shape p = XList [XSym x] -> starts_with (b "%") x = false -> exists s', ends p s ([p], s') /\ x_defs s' = x_defs s.
Proof.
  intros H X. apply shape_list in H as [ns [st [ew [es [w [-> H]]]]]]. apply shape_cons in H as [y [r [-> [Y H]]]]. apply shape_nil in H as ->.
  apply shape_sym in Y as [a [-> A]]. eexists. split.
  - exists 2. rewrite run_node. cbn [expand_one symbol]. unfold register. rewrite A, X. cbv beta iota. cbn [exs]. rewrite run_node. cbn [expand_one]. rewrite A, X.
    cbn [bind List.app]. reflexivity.
  - reflexivity.
Qed.
Lemma choice_enters e s x v0 n zero next : shape e = choice (XSym (b "%" ++ x)) x zero next ->
  starts_with (b "&") x = false -> starts_with (b "&&") x = false -> starts_with (b "%") x = false ->
  get x (x_defs s) = Some (Macro [] [v0]) -> shape v0 = tower n ->
  exists e' s', enters e s [e'] s' /\
    match n with
    | 0 => shape e' = zero /\ x_defs s' = x_defs s
    | S k => shape e' = next /\ exists v, shape v = tower k /\ x_defs s' = put x (variable [v]) (x_defs s)
    end.
Proof.
  intros H X1 X2 X3 G V0. apply shape_list in H as [ns [st [ew [es [w0 [-> H]]]]]]. apply shape_cons in H as [l [r [-> [L H]]]].
  apply shape_sym in L as [a [-> L]]. set (e := Lst _ _ _ _ _). pose proof (shape_trim r) as T. rewrite H in T.
  apply shape_cons in T as [u1 [r1 [T [U1 R1]]]]. apply shape_cons in R1 as [c1 [r2 [-> [C1 R2]]]]. apply shape_cons in R2 as [c2 [r3 [-> [C2 R3]]]].
  apply shape_nil in R3 as ->.
  apply shape_list in C1 as [k1 [st1 [ew1 [es1 [w1 [-> C1]]]]]]. apply shape_cons in C1 as [p1 [b1 [-> [P1 B1]]]].
  apply shape_cons in B1 as [z [b1' [-> [Z B1]]]]. apply shape_nil in B1 as ->.
  apply shape_list in C2 as [k2 [st2 [ew2 [es2 [w2 [-> C2]]]]]]. apply shape_cons in C2 as [p2 [b2 [-> [P2 B2]]]].
  apply shape_cons in B2 as [y [b2' [-> [Y B2]]]]. apply shape_nil in B2 as ->.
  destruct (arg_ends _ _ _ (arg_var _ x v0 n G V0) u1 (snd (register e s)) U1 eq_refl) as [v [s1 [E1 [V D1]]]].
  pose proof (tower_ends 0 p1 s1 P1) as EP1.
  assert (M : forall f, run E (S (S f)) (TNode e) s =
    do_match E (ex f) (fst (register e s)) [u1; Lst [p1; z] st1 ew1 es1 w1; Lst [p2; y] st2 ew2 es2 w2] (snd (register e s))).
  { intros f. rewrite (call_run f e a (b "match") r st ew es w0 s eq_refl L), T. reflexivity. }
  apply shape_list in P1 as [n1 [t1 [t2 [t3 [t4 [-> P1]]]]]]. apply shape_nil in P1 as ->.
  destruct n as [|k].
  - apply shape_list in V as [n1 [q1 [q2 [q3 [q4 [-> V]]]]]]. apply shape_nil in V as ->.
    destruct (bind_empty (State (x_defs s1) (vec_clone (x_vec s1)) (x_world s1)) t1 t2 t3 t4 q1 q2 q3 q4) as [s2 [BI D2]].
    exists z, s2. split; [|split; [exact Z|rewrite D2; exact D1]].
    set (g := fun s' : state => State (x_defs s1) (x_vec s1) (free_from (length (g_sources (x_world s1))) (x_world s'))).
    assert (X : forall f, run E f (TNode u1) (snd (register e s)) = Ok ([Lst [] q1 q2 q3 q4], s1) ->
      run E f (TNode (Lst [] t1 t2 t3 t4)) s1 = Ok ([Lst [] t1 t2 t3 t4], s1) ->
      run E (S (S f)) (TNode e) s = wrap g (exs (ex f) [z] s2)).
    { intros f Q1 Q2. rewrite M. unfold do_match. rewrite Q1. cbn [bind match_clauses list_of]. rewrite Q2. cbn [bind]. rewrite BI. unfold in_frame.
      rewrite BI. cbn [bind]. unfold wrap. destruct (exs (ex f) [z] s2) as [[ns s']| | | |]; reflexivity. }
    exists g. split.
    + intros f. destruct (ends_any _ _ _ E1 f) as [Q1|Q1]; [left; rewrite M; unfold do_match; rewrite Q1; reflexivity|].
      destruct (ends_any _ _ _ EP1 f) as [Q2|Q2]; [left; rewrite M; unfold do_match; rewrite Q1; cbn [bind match_clauses list_of]; rewrite Q2; reflexivity|].
      right. now apply X.
    + destruct (ends_ge _ _ _ E1) as [F1 G1]. destruct (ends_ge _ _ _ EP1) as [F2 G2]. exists (Nat.max F1 F2). intros f L'. apply X; [apply G1|apply G2]; lia.
  - apply shape_list in V as [n1 [q1 [q2 [q3 [q4 [-> V]]]]]]. apply shape_cons in V as [v' [n2 [-> [V V2]]]]. apply shape_nil in V2 as ->.
    pose proof (tower_list _ _ V) as VL.
    destruct (bind_excess v' (State (x_defs s1) (vec_clone (x_vec s1)) (x_world s1)) t1 t2 t3 t4 q1 q2 q3 q4 VL) as [err BX].
    destruct (pattern_ends p2 x s1 P2 X3) as [s2 [EP2 D2]].
    apply shape_list in P2 as [n2 [o1 [o2 [o3 [o4 [-> P2]]]]]]. apply shape_cons in P2 as [px [n3 [-> [PX P2]]]]. apply shape_nil in P2 as ->.
    apply shape_sym in PX as [pa [-> PX]].
    destruct (bind_one pa x v' (State (x_defs s2) (vec_clone (x_vec s2)) (x_world s2)) o1 o2 o3 o4 q1 q2 q3 q4 PX X1 X2 VL) as [s3 [BI D3]].
    exists y, s3. split; [|split; [exact Y|exists v'; split; [exact V|rewrite D3; cbn [x_defs]; now rewrite D2, D1]]].
    set (g := fun s' : state => State (x_defs s2) (x_vec s2) (free_from (length (g_sources (x_world s2))) (x_world s'))).
    assert (X : forall f, run E f (TNode u1) (snd (register e s)) = Ok ([Lst [v'] q1 q2 q3 q4], s1) ->
      run E f (TNode (Lst [] t1 t2 t3 t4)) s1 = Ok ([Lst [] t1 t2 t3 t4], s1) ->
      run E f (TNode (Lst [Sym pa] o1 o2 o3 o4)) s1 = Ok ([Lst [Sym pa] o1 o2 o3 o4], s2) ->
      run E (S (S f)) (TNode e) s = wrap g (exs (ex f) [y] s3)).
    { intros f Q1 Q2 Q3. rewrite M. unfold do_match. rewrite Q1. cbn [bind match_clauses list_of]. rewrite Q2. cbn [bind]. rewrite BX, Q3. cbn [bind].
      rewrite BI. unfold in_frame. rewrite BI. cbn [bind]. unfold wrap. destruct (exs (ex f) [y] s3) as [[ns s']| | | |]; reflexivity. }
    exists g. split.
    + intros f. destruct (ends_any _ _ _ E1 f) as [Q1|Q1]; [left; rewrite M; unfold do_match; rewrite Q1; reflexivity|].
      destruct (ends_any _ _ _ EP1 f) as [Q2|Q2]; [left; rewrite M; unfold do_match; rewrite Q1; cbn [bind match_clauses list_of]; rewrite Q2; reflexivity|].
      destruct (ends_any _ _ _ EP2 f) as [Q3|Q3];
        [left; rewrite M; unfold do_match; rewrite Q1; cbn [bind match_clauses list_of]; rewrite Q2; cbn [bind]; rewrite BX, Q3; reflexivity|].
      right. now apply X.
    + destruct (ends_ge _ _ _ E1) as [F1 G1]. destruct (ends_ge _ _ _ EP1) as [F2 G2]. destruct (ends_ge _ _ _ EP2) as [F3 G3].
      exists (Nat.max F1 (Nat.max F2 F3)). intros f L'. apply X; [apply G1|apply G2|apply G3]; lia.
Qed.

(** ** The machine *)

Variable M : machine.

Lemma label_not i : label M i <> b "a" /\ label M i <> b "b" /\ find_builtin (label M i) = None.
Proof. unfold label. destruct (i <? length M); (split; [discriminate|split; [discriminate|reflexivity]]). Qed.

Definition knows (d : scope) : Prop := forall i, exists ps body, get (label M i) d = Some (Macro ps body) /\
  map shape ps = [XSym (b "a"); XSym (b "b")] /\ map shape body = action_tree M (nth_error M i).
Lemma knows_put d x m : (x = b "a" \/ x = b "b") -> knows d -> knows (put x m d).
Proof.
  intros X K i. destruct (K i) as [ps [body [G R]]]. exists ps, body. split; [|exact R].
  destruct (label_not i) as [A [B _]]. rewrite get_put_other; [exact G|]. destruct X as [-> | ->]; assumption.
Qed.

(** A node that stands for a configuration. *)
Definition stands (c : config) (e : node) (s : state) : Prop := let '(i, m, n) := c in
  knows (x_defs s) /\ exists t1 t2, shape e = goto_tree M i t1 t2 /\ arg (x_defs s) t1 m /\ arg (x_defs s) t2 n.

Lemma stands_enters i m n e s : stands (i, m, n) e s -> exists body s2 v w, enters e s body s2 /\
  map shape body = action_tree M (nth_error M i) /\ knows (x_defs s2) /\
  get (b "a") (x_defs s2) = Some (Macro [] [v]) /\ shape v = tower m /\
  get (b "b") (x_defs s2) = Some (Macro [] [w]) /\ shape w = tower n.
Proof.
  intros [K [t1 [t2 [H [A1 A2]]]]]. destruct (K i) as [ps [body [G [P B]]]]. destruct (label_not i) as [_ [_ NB]].
  destruct (call_enters _ e s t1 t2 m n ps body H NB G P A1 A2) as [v [w [s2 [V [W [D EN]]]]]].
  exists body, s2, v, w. split; [exact EN|]. split; [exact B|]. rewrite D. split; [apply knows_put; [auto|]; apply knows_put; auto|].
  split; [rewrite get_put_other by discriminate; apply get_put_same|]. split; [exact V|]. split; [apply get_put_same|exact W].
Qed.
Lemma var_arg d x v n : get x d = Some (Macro [] [v]) -> shape v = tower n -> arg d (XSym (b "%" ++ x)) n.
Proof. apply arg_var. Qed.
Lemma stands_step c c' e s : step M c c' -> stands c e s -> exists e' s', goes e s e' s' /\ stands c' e' s'.
Proof.
  intros H S. inversion H as [i m n j N|i m n j N|i m n j z N|i n j z N|i m n j z N|i m j z N]; subst;
    destruct (stands_enters _ _ _ _ _ S) as [body [s2 [v [w [EN [B [K [GA [VA [GB VB]]]]]]]]]]; rewrite N in B; cbn [action_tree] in B;
    apply shape_cons in B as [e1 [r [-> [E1 R]]]]; apply shape_nil in R as ->; apply enters_goes in EN.
  - exists e1, s2. split; [exact EN|]. split; [exact K|]. do 2 eexists. split; [exact E1|]. split; [apply arg_list|]; eapply (var_arg (x_defs s2)); eassumption.
  - exists e1, s2. split; [exact EN|]. split; [exact K|]. do 2 eexists. split; [exact E1|]. split; [|apply arg_list]; eapply (var_arg (x_defs s2)); eassumption.
  - destruct (choice_enters e1 s2 (b "a") v _ _ _ E1 eq_refl eq_refl eq_refl GA VA) as [e2 [s3 [EN2 [H2 [v' [V' D]]]]]]. apply enters_goes in EN2.
    exists e2, s3. split; [exact (goes_goes _ _ _ _ _ _ EN EN2)|]. split; [rewrite D; apply knows_put; auto|]. do 2 eexists. split; [exact H2|]. rewrite D.
    split; [eapply (var_arg _ (b "a")); [apply get_put_same|exact V']|]. eapply (var_arg _ (b "b")); [rewrite get_put_other by discriminate; exact GB|exact VB].
  - destruct (choice_enters e1 s2 (b "a") v _ _ _ E1 eq_refl eq_refl eq_refl GA VA) as [e2 [s3 [EN2 [H2 D]]]]. apply enters_goes in EN2.
    exists e2, s3. split; [exact (goes_goes _ _ _ _ _ _ EN EN2)|]. split; [rewrite D; exact K|]. do 2 eexists. split; [exact H2|]. rewrite D.
    split; [eapply (var_arg _ (b "a")); eassumption|]. eapply (var_arg _ (b "b")); eassumption.
  - destruct (choice_enters e1 s2 (b "b") w _ _ _ E1 eq_refl eq_refl eq_refl GB VB) as [e2 [s3 [EN2 [H2 [v' [V' D]]]]]]. apply enters_goes in EN2.
    exists e2, s3. split; [exact (goes_goes _ _ _ _ _ _ EN EN2)|]. split; [rewrite D; apply knows_put; auto|]. do 2 eexists. split; [exact H2|]. rewrite D.
    split; [eapply (var_arg _ (b "a")); [rewrite get_put_other by discriminate; exact GA|exact VA]|]. eapply (var_arg _ (b "b")); [apply get_put_same|exact V'].
  - destruct (choice_enters e1 s2 (b "b") w _ _ _ E1 eq_refl eq_refl eq_refl GB VB) as [e2 [s3 [EN2 [H2 D]]]]. apply enters_goes in EN2.
    exists e2, s3. split; [exact (goes_goes _ _ _ _ _ _ EN EN2)|]. split; [rewrite D; exact K|]. do 2 eexists. split; [exact H2|]. rewrite D.
    split; [eapply (var_arg _ (b "a")); eassumption|]. eapply (var_arg _ (b "b")); eassumption.
Qed.
Lemma stands_stopped i m n e s : nth_error M i = None -> stands (i, m, n) e s ->
  exists ns s', ends e s (ns, s') /\ map shape ns = [tower m; tower n].
Proof.
  intros N S. destruct (stands_enters _ _ _ _ _ S) as [body [s2 [v [w [EN [B [K [GA [VA [GB VB]]]]]]]]]]. rewrite N in B. cbn [action_tree] in B.
  apply shape_cons in B as [e1 [r [-> [E1 B]]]]. apply shape_cons in B as [e2 [r' [-> [E2 R]]]]. apply shape_nil in R as ->.
  destruct (arg_ends _ _ _ (arg_var _ (b "a") v m GA VA) e1 s2 E1 eq_refl) as [v' [s3 [F1 [V' D]]]]. rewrite <- D in GB.
  destruct (arg_ends _ _ _ (arg_var _ (b "b") w n GB VB) e2 s3 E2 eq_refl) as [w' [s4 [F2 [W' _]]]].
  destruct (ends_ge _ _ _ F1) as [k1 R1]. destruct (ends_ge _ _ _ F2) as [k2 R2]. destruct EN as [g [_ [F X]]].
  exists [v'; w'], (g s4). split; [|cbn; now rewrite V', W'].
  exists (2 + Nat.max F (Nat.max k1 k2)). cbn [plus]. rewrite X by lia. cbn [exs]. rewrite R1 by lia. cbn [bind]. rewrite R2 by lia. reflexivity.
Qed.

Lemma machine_stops c m n : stops_with M c m n -> forall e s, stands c e s -> exists ns s', ends e s (ns, s') /\ map shape ns = [tower m; tower n].
Proof.
  intros H. induction H as [i m n N|c c' m n ST H IH]; intros e s S; [now apply (stands_stopped i)|].
  destruct (stands_step _ _ e s ST S) as [e' [s' [G S']]]. destruct (IH e' s' S') as [ns [t [R X]]].
  destruct (goes_ends _ _ _ _ _ _ G R) as [t' R']. eauto.
Qed.
Lemma machine_continues c : (exists c', step M c c') \/ exists m n, stops_with M c m n.
Proof.
  destruct c as [[i m] n]. destruct (nth_error M i) as [[[] j|[] j z]|] eqn:N.
  - left. eexists. apply add_first, N.
  - left. eexists. apply add_second, N.
  - left. destruct m; eexists; [eapply zero_first, N|eapply take_first, N].
  - left. destruct n; eexists; [eapply zero_second, N|eapply take_second, N].
  - right. exists m, n. now apply stopped.
Qed.
Lemma machine_runs_on : forall f c e s, stands c e s -> run E f (TNode e) s = OutOfFuel \/ exists m n, stops_with M c m n.
Proof.
  intros f. induction f as [f IH] using lt_wf_ind. intros c e s S.
  destruct (machine_continues c) as [[c' ST]|H]; [|right; exact H].
  destruct (stands_step _ _ e s ST S) as [e' [s' [[g [k [K [A _]]]] S']]].
  destruct (le_lt_dec k f) as [L|L].
  - replace f with (k + (f - k)) by lia. destruct (A (f - k)) as [X|X]; [left; exact X|]. rewrite X.
    destruct (IH (f - k) ltac:(lia) c' e' s' S') as [Y|[m [n Y]]]; [left; rewrite Y; reflexivity|]. right. exists m, n. econstructor; eassumption.
  - left. destruct (run_le E f k (TNode e) s ltac:(lia)) as [X|X]; [exact X|]. rewrite X. specialize (A 0). rewrite Nat.add_0_r in A.
    destruct A as [A|A]; rewrite A; reflexivity.
Qed.

Lemma machine_deep k c x y : stops_after M k c x y -> forall e s f, stands c e s -> f <= 2 * k -> run E f (TNode e) s = OutOfFuel.
Proof.
  induction 1 as [i m n N|k c c' m n ST H IH]; intros e s f S L; [now replace f with 0 by lia|].
  destruct (stands_step _ _ e s ST S) as [e' [s' [[g [d [D [A _]]]] S']]]. destruct (le_lt_dec d f) as [F|F].
  - replace f with (d + (f - d)) by lia. destruct (A (f - d)) as [X|X]; [exact X|]. rewrite X, (IH e' s' (f - d) S' ltac:(lia)). reflexivity.
  - destruct (run_le E f d (TNode e) s ltac:(lia)) as [X|X]; [exact X|]. rewrite X. specialize (A 0). rewrite Nat.add_0_r in A.
    destruct A as [A|A]; rewrite A; reflexivity.
Qed.

(** ** The definitions *)

Lemma macro_run q t e s : shape e = macro_tree q t -> exists ps body s', (forall f, run E (S (S f)) (TNode e) s = Ok ([], s')) /\
  x_defs s' = put q (Macro ps body) (x_defs s) /\ map shape ps = [XSym (b "a"); XSym (b "b")] /\ map shape body = t.
Proof.
  intros H. apply shape_list in H as [ns [st [ew [es [w0 [-> H]]]]]]. apply shape_cons in H as [l [r [-> [L H]]]].
  apply shape_sym in L as [a [-> L]]. set (e := Lst _ _ _ _ _). pose proof (shape_trim r) as T. rewrite H in T.
  apply shape_cons in T as [h [body [T [HD B]]]]. apply shape_list in HD as [k1 [st1 [ew1 [es1 [w1 [-> HD]]]]]].
  apply shape_cons in HD as [x [ps [-> [X P]]]]. apply shape_sym in X as [x' [-> X]].
  pose proof P as P0.
  apply shape_cons in P as [pa [r3 [-> [PA P]]]]. apply shape_cons in P as [pb [r4 [-> [PB P]]]]. apply shape_nil in P as ->.
  apply shape_sym in PA as [pa' [-> PA]]. apply shape_sym in PB as [pb' [-> PB]].
  assert (F1 : List.filter amp [Sym pa'; Sym pb'] = []) by (cbn [List.filter amp symbol]; rewrite PA, PB; reflexivity).
  assert (F2 : List.filter ampamp [Sym pa'; Sym pb'] = []) by (cbn [List.filter ampamp symbol]; rewrite PA, PB; reflexivity).
  exists [Sym pa'; Sym pb'], body, (set_defs (put q (Macro [Sym pa'; Sym pb'] body) (x_defs s)) (snd (register e s))).
  split; [|split; [reflexivity|auto]]. intros f.
  rewrite (call_run f e a (b "define") r st ew es w0 s eq_refl L), T. unfold invoke. change (find_builtin (b "define")) with (Some BDefine). cbn [run_builtin].
  unfold do_define. cbn [symbol list_of]. unfold create_macro. rewrite F1, F2, X. reflexivity.
Qed.
Lemma macros_run : forall l ns s, map shape ns = macros l -> NoDup (map fst l) ->
  exists s', (forall f rest, exs (ex (S (S f))) (ns ++ rest) s = exs (ex (S (S f))) rest s') /\
    (forall q t, In (q, t) l -> exists ps body, get q (x_defs s') = Some (Macro ps body) /\
       map shape ps = [XSym (b "a"); XSym (b "b")] /\ map shape body = t) /\
    (forall q, ~ In q (map fst l) -> get q (x_defs s') = get q (x_defs s)).
Proof.
  induction l as [|[q t] l IH]; intros ns s H ND; cbn [macros map] in H.
  - apply shape_nil in H as ->. exists s. split; [reflexivity|]. split; [intros q t []|auto].
  - apply shape_cons in H as [e [ns' [-> [H1 H2]]]]. destruct (macro_run q t e s H1) as [ps [body [s1 [R [D [P B]]]]]].
    cbn [map fst] in ND. inversion ND as [|? ? NI ND']; subst. destruct (IH ns' s1 H2 ND') as [s2 [R2 [A O]]].
    exists s2. split; [|split].
    + intros f rest. cbn [List.app exs]. rewrite R. cbn [bind]. rewrite R2. destruct (exs _ rest s2) as [[xs s3]| | | |]; reflexivity.
    + intros q' t' [I|I]; [|exact (A q' t' I)]. injection I as <- <-. exists ps, body. split; [|auto]. rewrite (O q NI), D. apply get_put_same.
    + intros q' N. cbn [map fst] in N. rewrite O by (intros I; apply N; right; exact I). rewrite D. apply get_put_other. intros ->. apply N. left. reflexivity.
Qed.
End Running.

Lemma nth_combine {A} (l : list A) : forall i k a, nth_error l i = Some a -> In (k + i, a) (combine (seq k (length l)) l).
Proof.
  induction l as [|x l IH]; intros [|i] k a H; try discriminate; cbn in H |- *.
  - injection H as ->. left. now rewrite Nat.add_0_r.
  - right. replace (k + S i) with (S k + i) by lia. apply IH, H.
Qed.
Lemma table_has M i : In (label M i, action_tree M (nth_error M i)) (table M).
Proof.
  unfold table. destruct (nth_error M i) as [a|] eqn:N.
  - right. apply in_map_iff. exists (i, a). split; [reflexivity|]. exact (nth_combine M i 0 a N).
  - left. apply nth_error_None in N. unfold label. apply Nat.ltb_ge in N. now rewrite N.
Qed.
Lemma table_names M : NoDup (map fst (table M)).
Proof.
  unfold table. cbn [map fst]. rewrite map_map.
  assert (X : map (fun x => fst (let '(i, a) := x in (label M i, action_tree M (Some a)))) (combine (seq 0 (length M)) M) =
    map (fun i => repeat "q"%char (S i)) (seq 0 (length M))).
  { assert (Y : forall (l : machine) k, k + length l <= length M ->
      map (fun x => fst (let '(i, a) := x in (label M i, action_tree M (Some a)))) (combine (seq k (length l)) l) =
      map (fun i => repeat "q"%char (S i)) (seq k (length l))).
    { induction l as [|a l IH]; intros k L; [reflexivity|]. cbn [length] in L. cbn [length seq combine map fst]. rewrite IH by lia. f_equal.
      unfold label. replace (k <? length M) with true by (symmetry; apply Nat.ltb_lt; lia). reflexivity. }
    apply Y. lia. }
  rewrite X. constructor.
  - intros I. apply in_map_iff in I as [i [I _]]. discriminate I.
  - apply FinFun.Injective_map_NoDup; [|apply seq_NoDup]. intros i j Q. apply (f_equal (@length ascii)) in Q. rewrite !repeat_length in Q. lia.
Qed.

Section Whole.
Variables (E : env) (M : machine) (path : bytes) (m n : nat).
Lemma simulator_start : exists e s, stands M (0, m, n) e s /\
  forall f, expand E (S (S f)) path (simulator M m n) = run E (S (S f)) (TNode e) s.
Proof.
  destruct (simulator_parse (e_unescape E) M m n) as [tree [P H]].
  apply map_eq_app in H as [ns [r [-> [H1 H2]]]]. apply shape_cons in H2 as [e [r' [-> [H2 R]]]]. apply shape_nil in R as ->.
  destruct (macros_run E (table M) ns (initial path (simulator M m n)) H1 (table_names M)) as [s [R [K _]]].
  exists e, s. split.
  - split; [intros i; apply (K _ _ (table_has M i))|]. exists (tower m), (tower n). split; [exact H2|]. split; apply arg_tower.
  - intros f. unfold expand. rewrite P. cbn [bind]. unfold expand_nodes.
    change (expand_node E (S (S f))) with (fun n s => run E (S (S f)) (TNode n) s). rewrite R. apply exs_one.
Qed.
Lemma simulator_result x y : stops_with M (0, m, n) x y ->
  exists f ns s, expand E f path (simulator M m n) = Ok (ns, s) /\ map shape ns = [tower x; tower y].
Proof.
  intros H. destruct simulator_start as [e [s [S R]]]. destruct (machine_stops E M _ _ _ H e s S) as [ns [s' [X T]]].
  destruct (ends_ge _ _ _ _ X) as [F G]. exists (2 + F), ns, s'. split; [|exact T]. cbn [plus]. rewrite R. apply G. lia.
Qed.
Lemma simulator_sound f : expand E f path (simulator M m n) = OutOfFuel \/
  exists ns s x y, expand E f path (simulator M m n) = Ok (ns, s) /\ map shape ns = [tower x; tower y] /\ stops_with M (0, m, n) x y.
Proof.
  destruct (expand_le E f (2 + f) path (simulator M m n) ltac:(lia)) as [X|X]; [left; exact X|].
  destruct simulator_start as [e [s [S R]]].
  destruct (machine_runs_on E M (2 + f) _ e s S) as [Y|[x [y H]]]; [left; rewrite X; cbn [plus]; rewrite R; exact Y|].
  destruct (simulator_result x y H) as [F [ns [t [Q T]]]].
  destruct (expand_le E f (F + f) path (simulator M m n) ltac:(lia)) as [U|U]; [left; exact U|].
  destruct (expand_le E F (F + f) path (simulator M m n) ltac:(lia)) as [V|V]; [congruence|].
  right. exists ns, t, x, y. split; [congruence|auto].
Qed.
Lemma simulator_deep k x y f : stops_after M k (0, m, n) x y -> f <= 2 * k -> expand E f path (simulator M m n) = OutOfFuel.
Proof.
  intros H L. destruct simulator_start as [e [s [S R]]].
  destruct k as [|k].
  - replace f with 0 by lia. unfold expand. destruct (simulator_parse (e_unescape E) M m n) as [tree [P T]]. rewrite P. cbn [bind].
    destruct tree as [|t tree]; [discriminate T|]. reflexivity.
  - destruct (expand_le E f (2 + 2 * k) path (simulator M m n) ltac:(lia)) as [X|X]; [exact X|]. rewrite X. cbn [plus]. rewrite R.
    apply (machine_deep E M _ _ _ _ H e s); [exact S|lia].
Qed.
End Whole.

Lemma after_stops M k c x y : stops_after M k c x y -> stops_with M c x y.
Proof. induction 1; [now constructor|econstructor; eassumption]. Qed.
Lemma stops_counted M c x y : stops_with M c x y -> exists k, stops_after M k c x y.
Proof.
  induction 1 as [i m n N|c c' m n ST H [k IH]]; [exists 0; apply after_none, N|]. exists (S k). exact (after_step M k c c' m n ST IH).
Qed.
