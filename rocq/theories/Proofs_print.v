(** * Printing and parsing *)

From Coq Require Import String List Ascii Bool Arith NArith Lia.
From Verif Require Import Text Utf8 Res Lexer Ast Parser Debug Format Spec_grammar Spec_tree
  Spec_print Proofs_text Proofs_lexer Proofs_token Proofs_ast Proofs_parser.
Import ListNotations.

(** ** Node equality and hashing *)

Lemma node_eq_iff : forall x y, node_eq x y = true <-> shape x = shape y.
Proof.
  induction x using node_ind'; intros y; destruct y; simpl;
    try (split; intros E; discriminate E);
    try (rewrite beq_eq; split; intros E; [f_equal; auto|inversion E; auto]).
  - transitivity (map shape ns = map shape nodes);
      [|split; intros E; [f_equal; auto|inversion E; auto]].
    revert nodes. induction H as [|x ns Hx Hns IH]; intros [|y ys]; simpl;
      try (split; intros E; [try discriminate E; auto|try discriminate E; auto]; fail).
    rewrite andb_true_iff, Hx, IH. split; [intros [-> ->]; auto|intros E; inversion E; auto].
  - rewrite andb_true_iff, beq_eq, IHx. split; [intros [-> ->]; auto|intros E; inversion E; auto].
Qed.

Lemma node_hash_shape : forall x y, shape x = shape y -> node_hash x = node_hash y.
Proof.
  induction x using node_ind'; intros y E; destruct y; simpl in *; inversion E; try congruence.
  - assert (L : length ns = length nodes) by (apply (f_equal (@length _)) in H1; rewrite !map_length in H1; auto).
    rewrite L. f_equal. f_equal. clear L E. revert nodes H1.
    induction H as [|x ns Hx Hns IH]; intros [|y ys] E; simpl in *; inversion E; auto.
    rewrite (Hx y); auto. f_equal. auto.
  - f_equal. f_equal. auto.
Qed.

(** ** Printing what was parsed *)

Section Display.
Variable printable : bytes -> bool.

Fixpoint sdisplay (t : stree) : bytes :=
  match t with
  | SSym w v | SNum w v => w ++ v
  | SStr w v | SRaw w v => w ++ debug_str printable v
  | SAttr w k v => w ++ b ":" ++ k ++ sdisplay v
  | SList w ts ew => w ++ b "(" ++ flat_map sdisplay ts ++ ew ++ b ")"
  end.

Lemma display_strip : forall n, display_node printable n = sdisplay (strip n).
Proof.
  induction n using node_ind'; simpl; auto.
  - do 2 f_equal. f_equal. induction H; simpl; auto. congruence.
  - congruence.
Qed.

(** No comment, string or escape. *)
Definition simple (c : ascii) : Prop := c <> ";"%char /\ c <> DQ /\ c <> BS.

Lemma blank_simple : forall bl w, Blank bl w -> Forall simple bl -> bl = w.
Proof.
  intros bl w B F. destruct B; auto. apply Forall_app in F as [_ F]. inversion F; subst.
  destruct H3. congruence.
Qed.
Lemma unbackslash_simple : forall t, Forall simple t -> unbackslash t = t.
Proof.
  induction 1 as [|c t [_ [_ H]] F IH]; simpl; auto.
  apply ch_neq in H. rewrite H. simpl. rewrite IH. reflexivity.
Qed.
Ltac fall := repeat match goal with
  | H : Forall simple (_ ++ _) |- _ => apply Forall_app in H as [? ?]
  | H : Forall simple (_ :: _) |- _ => inversion H; clear H; subst
  end.
Lemma expr_display : forall unescape,
  (forall x e rest, Expr unescape x e rest -> Forall simple x ->
     x = sdisplay e ++ rest /\ Forall simple rest) /\
  (forall x es ew rest, Items unescape x es ew rest -> Forall simple x ->
     x = flat_map sdisplay es ++ ew ++ ")"%char :: rest /\ Forall simple rest).
Proof.
  intros unescape. apply E_mutind; intros; unfold quote3 in *; fall.
  - rewrite (blank_simple bl w) by auto. rewrite unbackslash_simple by (constructor; auto).
    simpl. rewrite <- app_assoc. auto.
  - rewrite (blank_simple bl w) by auto. rewrite unbackslash_simple by (constructor; auto).
    simpl. rewrite <- app_assoc. auto.
  - match goal with H : simple DQ |- _ => destruct H as (_ & H & _); congruence end.
  - match goal with H : simple DQ |- _ => destruct H as (_ & H & _); congruence end.
  - rewrite (blank_simple bl w) by auto. destruct H; auto. subst mid.
    split; auto. simpl. rewrite <- !app_assoc. simpl. rewrite <- !app_assoc. reflexivity.
  - rewrite (blank_simple bl w) by auto. destruct H; auto. subst mid.
    split; auto. simpl. rewrite <- !app_assoc. simpl. rewrite <- !app_assoc. reflexivity.
  - rewrite (blank_simple bl w) by auto. auto.
  - destruct (H H1) as [E F]. destruct (H0 F) as [E' F']. split; auto.
    rewrite E, E'. simpl. rewrite <- !app_assoc. reflexivity.
Qed.

Lemma program_display : forall unescape x es, Program unescape x es -> Forall simple x ->
  exists tail, Forall blank_char tail /\ x = flat_map sdisplay es ++ tail.
Proof.
  intros unescape x es H. induction H as [t T|x e mid es HE HP IH]; intros F.
  - exists t. split; auto. destruct T as [t w B|t w body B N].
    + destruct B; auto; fall.
      match goal with H : simple ";"%char |- _ => destruct H; congruence end.
    + fall. match goal with H : simple ";"%char |- _ => destruct H; congruence end.
  - destruct (proj1 (expr_display unescape) _ _ _ HE F) as [E F'].
    destruct (IH F') as (tail & FB & E2). exists tail. split; auto. rewrite E, E2. simpl.
    rewrite <- app_assoc. reflexivity.
Qed.

Theorem parse_display : forall unescape id src ns, utf8 src -> Forall simple src ->
  parse unescape id src = Ok ns ->
  exists tail, Forall blank_char tail /\ src = flat_map (display_node printable) ns ++ tail.
Proof.
  intros unescape id src ns U F P.
  assert (PG : Program unescape src (map strip ns)) by (apply (parse_grammar unescape id); eauto).
  destruct (program_display _ _ _ PG F) as (tail & FB & E). exists tail. split; auto.
  rewrite E. f_equal. clear. induction ns; simpl; auto. rewrite display_strip. congruence.
Qed.

(** ** Quoted strings *)

Lemma ascii_cases : forall P : ascii -> Prop,
  (forall n, n < 256 -> P (ascii_of_nat n)) -> forall c, P c.
Proof.
  intros P H c. rewrite <- (ascii_nat_embedding c). apply H. apply nat_ascii_bounded.
Qed.

Lemma hex_digit_ok : forall n, (n < 16)%N ->
  hex_digit n <> DQ /\ hex_digit n <> BS /\ nat_of_ascii (hex_digit n) <= 127.
Proof.
  intros n H.
  assert (A : forallb (fun i => negb (Ascii.eqb (hex_digit (N.of_nat i)) DQ)
             && negb (Ascii.eqb (hex_digit (N.of_nat i)) BS)
             && (nat_of_ascii (hex_digit (N.of_nat i)) <=? 127)) (seq 0 16) = true) by reflexivity.
  rewrite forallb_forall in A. specialize (A (N.to_nat n)). rewrite N2Nat.id in A.
  rewrite in_seq in A. specialize (A ltac:(lia)).
  apply andb_true_iff in A as [A A3]. apply andb_true_iff in A as [A1 A2].
  apply negb_true_iff in A1, A2. apply Ascii.eqb_neq in A1, A2. apply Nat.leb_le in A3. auto.
Qed.
Definition quiet (c : ascii) : Prop := c <> DQ /\ c <> BS /\ nat_of_ascii c <= 127.
Lemma hex_aux_ok : forall fuel n acc, Forall quiet acc -> Forall quiet (hex_aux fuel n acc).
Proof.
  induction fuel; intros n acc F; simpl; auto.
  assert (Forall quiet (hex_digit (n mod 16) :: acc)).
  { constructor; auto. apply hex_digit_ok. apply N.mod_lt. discriminate. }
  destruct (n <? 16)%N; auto.
Qed.
Lemma hex_ok : forall n, Forall quiet (hex n).
Proof. intros. apply hex_aux_ok. constructor. Qed.

Lemma sb_app : forall x y, StrBody x -> StrBody y -> StrBody (x ++ y).
Proof. intros x y H. induction H; intros; simpl; auto; [apply sb_char|apply sb_esc]; auto. Qed.
Lemma sb_quiet : forall x, Forall (fun c => c <> DQ /\ c <> BS) x -> StrBody x.
Proof. induction 1 as [|c x [H1 H2]]; constructor; auto. Qed.
Lemma utf8_quiet : forall x, Forall quiet x -> utf8 x.
Proof. induction 1 as [|c x (_ & _ & H)]; [constructor|]. apply utf8_ascii_cons; auto. Qed.
Lemma quiet_ascii : forall c, nat_of_ascii c <= 127 -> c <> DQ -> c <> BS -> quiet c.
Proof. unfold quiet. auto. Qed.

Lemma unicode_escape_ok : forall s, StrBody (unicode_escape s) /\ utf8 (unicode_escape s).
Proof.
  intros s. unfold unicode_escape. pose proof (hex_ok (code_point s)) as H.
  assert (Q : Forall quiet (b "u{" ++ hex (code_point s) ++ b "}")).
  { apply Forall_app. split; [|apply Forall_app; split; auto];
      repeat (constructor; [repeat split; try (intros X; discriminate X); vm_compute; lia|]); constructor. }
  change (b "\u{" ++ hex (code_point s) ++ b "}") with (BS :: "u"%char :: "{"%char :: hex (code_point s) ++ b "}").
  change (b "u{" ++ hex (code_point s) ++ b "}") with ("u"%char :: "{"%char :: hex (code_point s) ++ b "}") in Q.
  split.
  - apply sb_esc. inversion Q; subst. apply sb_quiet. eapply Forall_impl; [|exact H3].
    intros a (A & B & _). auto.
  - apply utf8_ascii_cons; [vm_compute; lia|]. apply utf8_quiet. auto.
Qed.

Lemma between_le : forall lo hi c, between lo hi c = true -> lo <= nat_of_ascii c <= hi.
Proof. unfold between. intros. apply andb_true_iff in H as [A B]. apply Nat.leb_le in A, B. auto. Qed.

Lemma debug_ascii_ok : forall c, StrBody (debug_ascii c) /\ utf8 (debug_ascii c) /\ debug_ascii c <> [].
Proof.
  intros c. unfold debug_ascii.
  repeat match goal with
  | |- context [if ch ?c ?d then _ else _] =>
      destruct (ch c d) eqn:?;
      [split; [repeat constructor|split; [|discriminate]];
       repeat (apply utf8_ascii_cons; [vm_compute; lia|]); constructor|]
  end.
  destruct (between 32 126 c) eqn:E.
  - apply between_le in E. split; [|split; [|discriminate]].
    + constructor; [| |constructor].
      * intros ->. discriminate.
      * intros ->. discriminate.
    + apply utf8_ascii_cons; [lia|constructor].
  - destruct (unicode_escape_ok [c]). split; auto. split; auto. discriminate.
Qed.

Lemma take_cont_app : forall ks r, Forall (fun c => is_cont c = true) ks -> boundary r ->
  take_cont (ks ++ r) = (ks, r).
Proof.
  intros ks r H B. induction H as [|c ks Hc F IH]; simpl.
  - destruct r as [|c r]; simpl in *; auto. rewrite B. reflexivity.
  - rewrite Hc, IH. reflexivity.
Qed.

Lemma cont_high : forall c, is_cont c = true -> 127 < nat_of_ascii c.
Proof.
  intros c. apply (ascii_cases (fun c => is_cont c = true -> 127 < nat_of_ascii c)).
  assert (A : forallb (fun n => negb (is_cont (ascii_of_nat n)) || (127 <? nat_of_ascii (ascii_of_nat n)))
     (seq 0 256) = true) by (vm_compute; reflexivity).
  rewrite forallb_forall in A. intros n Hn Hc. specialize (A n). rewrite in_seq in A.
  specialize (A ltac:(lia)). rewrite Hc in A. apply Nat.ltb_lt. exact A.
Qed.
Lemma high_not : forall c, 127 < nat_of_ascii c -> c <> DQ /\ c <> BS.
Proof. intros c H. split; intros ->; vm_compute in H; lia. Qed.

Lemma debug_chars_ok : forall fuel s, utf8 s -> StrBody (debug_chars printable fuel s) /\
  utf8 (debug_chars printable fuel s).
Proof.
  induction fuel; intros s U; simpl; [split; constructor|].
  destruct s as [|c r]; [split; constructor|].
  destruct (utf8_cons_inv c r U) as (ks & r' & -> & UC & Ur & NC & FK & D).
  destruct (between 0 127 c) eqn:E.
  - destruct D as [[_ ->]|[H _]]; [|apply between_le in E; lia].
    destruct (debug_ascii_ok c) as (A & B & _). destruct (IHfuel r' Ur).
    split; [apply sb_app|apply utf8_app2]; auto.
  - rewrite take_cont_app by (auto using utf8_boundary). destruct (IHfuel r' Ur).
    destruct (printable (c :: ks)).
    + split; [apply sb_app|apply utf8_app2]; auto.
      * apply sb_quiet. constructor.
        { apply high_not. destruct D as [[H1 ->]|[H1 _]]; auto.
          unfold between in E. apply andb_false_iff in E as [E|E]; apply Nat.leb_gt in E; lia. }
        eapply Forall_impl; [|exact FK]. intros a Ha. apply high_not, cont_high; auto.
      * rewrite <- (app_nil_r (c :: ks)). apply utf8_app; auto. constructor.
    + destruct (unicode_escape_ok (c :: ks)). split; [apply sb_app|apply utf8_app2]; auto.
Qed.
Lemma debug_body_ok : forall v, utf8 v -> StrBody (debug_body printable v) /\ utf8 (debug_body printable v).
Proof. intros. apply debug_chars_ok; auto. Qed.
Lemma debug_body_nil : forall v, debug_body printable v = [] -> v = [].
Proof.
  intros [|c r] H; auto. exfalso. unfold debug_body in H. simpl in H.
  destruct (between 0 127 c).
  - apply app_eq_nil in H as [H _]. destruct (debug_ascii_ok c) as (_ & _ & N). auto.
  - destruct (take_cont r). apply app_eq_nil in H as [H _]. destruct (printable (c :: l)); discriminate.
Qed.

(** ** Parsing what was printed *)

Variable unescape : bytes -> option bytes.
Hypothesis unescape_debug : forall v, utf8 v -> unescape (debug_body printable v) = Some v.

Fixpoint readables (l : list node) : Prop :=
  match l with [] => True | x :: l' => readable x /\ readables l' end.

Lemma readable_ws : forall n, readable n -> Forall blank_char (leading_ws n).
Proof. destruct n; simpl; intros [H _]; exact H. Qed.

(** What may follow a node. *)
Definition after (n : node) (rest : bytes) : Prop :=
  (ends_ident n = true -> stops rest) /\
  (ends_empty n = true -> ~ exists r, rest = DQ :: r).

Lemma plain_ident : forall t, Forall plain t -> Ident t.
Proof. induction 1; constructor; auto. Qed.
Lemma plain_unbackslash : forall t, Forall plain t -> unbackslash t = t.
Proof.
  induction 1 as [|c t [_ H] F IH]; simpl; auto.
  apply ch_neq in H. rewrite H. simpl. rewrite IH. reflexivity.
Qed.

Lemma blank_stops : forall w rest, Forall blank_char w -> w <> [] -> stops (w ++ rest).
Proof. intros [|c w] rest F N; [congruence|]. inversion F; subst. simpl. left. auto. Qed.

Lemma node_front : forall n, exists t, sexp_node printable n = leading_ws n ++ t /\
  match n with Lst _ _ _ _ _ | Raw _ => exists r, t = "("%char :: r
             | Str _ => exists r, t = DQ :: r | _ => True end.
Proof.
  destruct n; simpl; eexists; (split; [reflexivity|]); auto; eexists; reflexivity.
Qed.

Lemma self_delimiting_stops : forall n rest, readable n -> self_delimiting n ->
  stops (sexp_node printable n ++ rest).
Proof.
  intros n rest R SD. destruct (node_front n) as (t & -> & H). rewrite <- app_assoc.
  destruct (leading_ws n) eqn:E.
  - destruct SD as [SD|SD]; [congruence|]. simpl.
    destruct n; try contradiction; destruct H as [r ->]; simpl; unfold delimiter; auto.
  - apply blank_stops; [|discriminate]. rewrite <- E. apply readable_ws. auto.
Qed.

Lemma apart_after : forall n m rest, readable m -> apart n m -> after n (sexp_node printable m ++ rest).
Proof.
  intros n m rest R [A B]. split.
  - intros H. apply self_delimiting_stops; auto.
  - intros H [r E]. apply B; auto. destruct (node_front m) as (t & F & C). rewrite F in E.
    pose proof (readable_ws _ R) as W. destruct (leading_ws m) as [|c w] eqn:EW.
    + split; auto. simpl in E. destruct m; simpl; auto; try (destruct C as (r' & ->); discriminate).
      * simpl in F, R, EW. destruct R as (_ & _ & P & c & t0 & Ev & SS). rewrite EW, Ev in F. simpl in F.
        subst t. inversion E; subst. destruct SS as (ND & _). apply ND. unfold delimiter. auto.
      * simpl in F, R, EW. destruct R as (_ & _ & P & c & t0 & Ev & SS). rewrite EW, Ev in F. simpl in F.
        subst t. inversion E; subst. destruct SS as [[D1 D2]|[D|D]]; try discriminate D.
        vm_compute in D1, D2. lia.
      * simpl in F, EW. subst. simpl in E. discriminate.
    + simpl in E. inversion E; subst. inversion W; subst. destruct H2 as [|[|[|]]]; discriminate.
Qed.

Lemma spaced_after : forall n ns rest, readables (n :: ns) -> spaced (n :: ns) ->
  (ns = [] -> after n rest) -> after n (flat_map (sexp_node printable) ns ++ rest).
Proof.
  intros n [|m ns] rest R S A; simpl.
  - auto.
  - destruct S as [S _]. rewrite <- app_assoc. apply apart_after; auto. destruct R as (_ & R & _). auto.
Qed.

Lemma raw_sym : forall rest, stops rest ->
  Expr unescape (b "%raw" ++ rest) (SSym [] (b "%raw")) rest.
Proof.
  intros rest H. change (b "%raw") with (unbackslash (b "%raw")) at 2.
  apply (e_sym unescape [] [] "%"%char (b "raw")); auto.
  * constructor. constructor.
  * unfold symbol_start, delimiter, blank_char, number_start, digit.
    repeat split; intros X; repeat destruct X as [X|X]; try discriminate X. vm_compute in X. lia.
  * repeat (apply id_plain; [split; [unfold delimiter, blank_char; intros X; repeat destruct X as [X|X]; discriminate X|discriminate]|]). constructor.
Qed.

Lemma sexp_expr : forall n, readable n -> forall rest, after n rest ->
  Expr unescape (sexp_node printable n ++ rest) (reread n) rest.
Proof.
  assert (STR : forall w v rest, Forall blank_char w -> utf8 v ->
     (v = [] -> ~ exists r, rest = DQ :: r) ->
     Expr unescape ((w ++ debug_str printable v) ++ rest) (SStr w v) rest).
  { intros w v rest FB U N. unfold debug_str. rewrite <- app_assoc. simpl. rewrite <- app_assoc. simpl.
    apply e_str; auto. constructor; auto. apply debug_body_ok; auto.
    intros [E H]. apply debug_body_nil in E. apply N; auto. }
  induction n using node_ind'; intros R rest [AI AE].
  - destruct R as (W & U & P & c & t & Ev & SS). simpl in *. rewrite Ev in *. rewrite <- app_assoc.
    rewrite <- (plain_unbackslash (c :: t) P) at 2. apply e_sym; auto. constructor; auto.
    apply plain_ident; auto.
  - destruct R as (W & U & P & c & t & Ev & SS). simpl in *. rewrite Ev in *. rewrite <- app_assoc.
    rewrite <- (plain_unbackslash (c :: t) P) at 2. apply e_num; auto. constructor; auto.
    apply plain_ident; auto.
  - destruct R as (W & U). simpl in *. apply STR; auto. intros E. apply AE. rewrite E. auto.
  - destruct R as (W & U).
    change (reread (Raw a)) with (SList (a_ws a) [SSym [] (b "%raw"); SStr (b " ") (a_val a)] []).
    change (sexp_node printable (Raw a))
      with (a_ws a ++ b "(%raw " ++ debug_str printable (a_val a) ++ b ")").
    replace ((a_ws a ++ b "(%raw " ++ debug_str printable (a_val a) ++ b ")") ++ rest)
      with (a_ws a ++ "("%char :: b "%raw" ++ ((b " " ++ debug_str printable (a_val a)) ++ ")"%char :: rest))
      by (simpl; rewrite <- !app_assoc; simpl; rewrite <- !app_assoc; reflexivity).
    eapply e_list; [constructor; auto|]. eapply i_cons.
    + apply raw_sym. simpl. unfold delimiter, blank_char. tauto.
    + eapply i_cons.
      * apply STR; auto.
        { constructor; [unfold blank_char; tauto|constructor]. }
        { intros _ [r X]. discriminate X. }
      * apply (i_end unescape []). constructor. constructor.
  - destruct R as (W & FE & SP & RS). simpl in W.
    change (reread (Lst ns s ew es w)) with (SList w (map reread ns) ew).
    change (sexp_node printable (Lst ns s ew es w))
      with (w ++ b "(" ++ flat_map (sexp_node printable) ns ++ ew ++ b ")").
    replace ((w ++ b "(" ++ flat_map (sexp_node printable) ns ++ ew ++ b ")") ++ rest)
      with (w ++ "("%char :: flat_map (sexp_node printable) ns ++ (ew ++ ")"%char :: rest))
      by (simpl; rewrite <- !app_assoc; simpl; rewrite <- !app_assoc; reflexivity).
    eapply e_list; [constructor; auto|]. clear AI AE.
    fold (readables ns) in RS. clear W.
    induction H as [|x ns Hx Hns IH]; simpl.
    + apply i_end. constructor; auto.
    + rewrite <- app_assoc. destruct RS as [R1 RS]. eapply i_cons.
      * apply Hx; auto. apply spaced_after; auto. split; auto.
        intros ->. split.
        { intros _. destruct ew as [|c ew]; simpl; [unfold delimiter; auto|]. inversion FE; subst. left; auto. }
        { intros _ [r X]. destruct ew as [|c ew]; simpl in X; inversion X; subst.
          inversion FE; subst. destruct H1 as [|[|[|]]]; discriminate. }
      * apply IH; auto. destruct ns; simpl in *; tauto.
  - destruct R as (W & U & I & SD & R). simpl in *.
    replace ((w ++ ":"%char :: k ++ sexp_node printable n) ++ rest)
      with (w ++ ":"%char :: k ++ (sexp_node printable n ++ rest))
      by (rewrite <- !app_assoc; simpl; rewrite <- !app_assoc; reflexivity).
    eapply e_attr; auto.
    + constructor; auto.
    + apply self_delimiting_stops; auto.
    + apply IHn; auto. split; auto.
Qed.

Lemma ascii_utf8 : forall s, Forall (fun c => nat_of_ascii c <= 127) s -> utf8 s.
Proof. induction 1; [constructor|]. apply utf8_ascii_cons; auto. Qed.
Lemma blank_utf8 : forall w, Forall blank_char w -> utf8 w.
Proof.
  intros. apply ascii_utf8. eapply Forall_impl; [|exact H].
  intros a [->|[->|[->|]]]; subst; vm_compute; lia.
Qed.
Lemma debug_str_utf8 : forall v, utf8 v -> utf8 (debug_str printable v).
Proof.
  intros. unfold debug_str. apply utf8_ascii_cons; [vm_compute; lia|].
  apply utf8_app2; [apply debug_body_ok; auto|]. apply utf8_ascii_cons; [vm_compute; lia|constructor].
Qed.
Lemma sexp_utf8 : forall n, readable n -> utf8 (sexp_node printable n).
Proof.
  induction n using node_ind'; intros R.
  1,2: destruct R as (W & U & _); apply utf8_app2; auto; apply blank_utf8; auto.
  - destruct R as (W & U). apply utf8_app2; [apply blank_utf8; auto|apply debug_str_utf8; auto].
  - destruct R as (W & U).
    change (utf8 (a_ws a ++ b "(%raw " ++ debug_str printable (a_val a) ++ b ")")).
    apply utf8_app2; [apply blank_utf8; auto|]. apply utf8_app2; [apply ascii_utf8|].
    { repeat (constructor; [vm_compute; lia|]). constructor. }
    apply utf8_app2; [apply debug_str_utf8; auto|].
    apply utf8_ascii_cons; [vm_compute; lia|constructor].
  - destruct R as (W & FE & SP & RS). simpl in *. apply utf8_app2; [apply blank_utf8; auto|].
    apply utf8_ascii_cons; [vm_compute; lia|]. fold (readables ns) in RS. clear SP.
    apply utf8_app2.
    + induction H; simpl; [constructor|]. destruct RS. apply utf8_app2; auto.
    + apply utf8_app2; [apply blank_utf8; auto|]. apply utf8_ascii_cons; [vm_compute; lia|constructor].
  - destruct R as (W & U & _ & _ & R). simpl in *. apply utf8_app2; [apply blank_utf8; auto|].
    apply utf8_ascii_cons; [vm_compute; lia|]. apply utf8_app2; auto.
Qed.

Lemma sexp_program : forall t, readables t -> spaced t ->
  Program unescape (sexp_gen printable t) (map reread t) /\ utf8 (sexp_gen printable t).
Proof.
  induction t as [|n t IH]; intros R S; unfold sexp_gen; simpl.
  - split; [|constructor]. constructor. apply (trail_blank [] []). constructor. constructor.
  - destruct R as [R1 R2]. assert (S2 : spaced t) by (destruct t; simpl in *; tauto).
    destruct (IH R2 S2) as [P U]. unfold sexp_gen in *. split.
    + econstructor; [|exact P]. apply sexp_expr; auto.
      pose proof (spaced_after n t [] (conj R1 R2) S) as SA. rewrite app_nil_r in SA. apply SA.
      intros _. split; [intros _; exact I|]. intros _ [r X]. discriminate.
    + apply utf8_app2; auto. apply sexp_utf8; auto.
Qed.

Theorem sexp_parse : forall id t, readables t -> spaced t ->
  exists t', parse unescape id (sexp_gen printable t) = Ok t' /\ map strip t' = map reread t.
Proof.
  intros id t R S. destruct (sexp_program t R S) as [P U].
  apply (parse_grammar unescape id); auto.
Qed.
End Display.

Lemma reread_no_raw : forall n, no_raw n -> reread n = strip n.
Proof.
  induction n using node_ind'; simpl; intros N; auto; try contradiction.
  - f_equal. induction H; simpl; auto. destruct N. rewrite H; auto. f_equal. auto.
  - rewrite IHn; auto.
Qed.

(** ** Escapes *)

Lemma names_strip : forall n, names n = snames (strip n).
Proof.
  induction n using node_ind'; simpl; auto.
  induction H; simpl; auto. congruence.
Qed.
Lemma unbackslash_no_bs : forall t, ~ In BS (unbackslash t).
Proof. intros t X. unfold unbackslash in X. apply filter_In in X as [_ X]. discriminate X. Qed.
Lemma expr_no_bs : forall unescape,
  (forall x e rest, Expr unescape x e rest -> Forall (fun v => ~ In BS v) (snames e)) /\
  (forall x es ew rest, Items unescape x es ew rest ->
     Forall (fun v => ~ In BS v) (flat_map snames es)).
Proof.
  intros unescape. apply E_mutind; intros; simpl; auto.
  - constructor; [apply (unbackslash_no_bs (c :: t))|constructor].
  - constructor; [apply (unbackslash_no_bs (c :: t))|constructor].
  - apply Forall_app; auto.
Qed.
Theorem parse_no_bs : forall unescape id src ns, utf8 src -> parse unescape id src = Ok ns ->
  Forall (fun v => ~ In BS v) (flat_map names ns).
Proof.
  intros unescape id src ns U P.
  assert (PG : Program unescape src (map strip ns)) by (apply (parse_grammar unescape id); eauto).
  assert (F : Forall (fun v => ~ In BS v) (flat_map snames (map strip ns))).
  { clear P U. remember (map strip ns) as es. clear Heqes. induction PG; simpl; [constructor|].
    apply Forall_app. split; auto. apply (proj1 (expr_no_bs unescape) _ _ _ H). }
  replace (flat_map names ns) with (flat_map snames (map strip ns)); auto.
  clear. induction ns; simpl; auto. rewrite names_strip. congruence.
Qed.

(** Spell any text as a symbol: a backslash before every ASCII character. *)
Definition spell (v : bytes) : bytes :=
  flat_map (fun c => if between 0 127 c then [BS; c] else [c]) v.

Lemma delim_low : forall c, delimiter c -> nat_of_ascii c <= 127.
Proof.
  intros c H. unfold delimiter, blank_char in H.
  repeat destruct H as [H|H]; subst; vm_compute; lia.
Qed.
Lemma not_low : forall c, between 0 127 c = false -> 127 < nat_of_ascii c.
Proof. intros c E. unfold between in E. apply andb_false_iff in E as [E|E]; apply Nat.leb_gt in E; lia. Qed.

Lemma spell_ident : forall v, Ident (spell v).
Proof.
  induction v as [|c v IH]; simpl; [constructor|].
  destruct (between 0 127 c) eqn:E; simpl; [apply id_esc; auto|].
  apply not_low in E. apply id_plain; auto. split.
  - intros D. apply delim_low in D. lia.
  - intros ->. vm_compute in E. lia.
Qed.
Lemma spell_unbackslash : forall v, ~ In BS v -> unbackslash (spell v) = v.
Proof.
  induction v as [|c v IH]; simpl; auto. intros N.
  assert (NC : c <> BS) by (intros ->; apply N; auto).
  assert (NV : ~ In BS v) by (intros X; apply N; auto).
  unfold unbackslash in *. apply ch_neq in NC.
  destruct (between 0 127 c); simpl; rewrite ?NC; simpl; rewrite IH; auto.
Qed.
Lemma spell_utf8 : forall v, utf8 v -> utf8 (spell v).
Proof.
  intros v H. induction H as [|c s Hc Hs IH]; [constructor|].
  unfold spell. rewrite flat_map_app. apply utf8_app2; auto.
  destruct (utf8_char_shape c Hc) as (c0 & ks & -> & NC & FK & D). simpl.
  assert (K : flat_map (fun c => if between 0 127 c then [BS; c] else [c]) ks = ks).
  { clear - FK. induction FK as [|x l H F IH]; auto. cbn [flat_map]. apply cont_high in H.
    assert (between 0 127 x = false) as ->; [|cbn [app]; rewrite IH; reflexivity].
    unfold between. apply andb_false_iff. right. apply Nat.leb_gt. lia. }
  rewrite K. destruct (between 0 127 c0) eqn:E; simpl.
  - apply utf8_ascii_cons; [vm_compute; lia|]. rewrite <- (app_nil_r (c0 :: ks)). apply utf8_app; auto. constructor.
  - rewrite <- (app_nil_r (c0 :: ks)). apply utf8_app; auto. constructor.
Qed.
Lemma spell_start : forall c v, exists c' v', spell (c :: v) = c' :: v' /\ symbol_start c'.
Proof.
  intros c v. simpl. destruct (between 0 127 c) eqn:E; simpl.
  - exists BS. eexists. split; [reflexivity|].
    unfold symbol_start, delimiter, blank_char, number_start, digit.
    repeat split; intros X; repeat destruct X as [X|X]; try discriminate X. vm_compute in X. lia.
  - exists c. eexists. split; [reflexivity|]. apply not_low in E. unfold symbol_start. repeat split.
    + intros D. apply delim_low in D. lia.
    + intros [[_ D]|[->| ->]]; [lia| |]; vm_compute in E; lia.
    + intros ->. vm_compute in E; lia.
    + intros ->. vm_compute in E; lia.
Qed.

Theorem spell_parse : forall unescape id v, utf8 v -> v <> [] -> ~ In BS v ->
  exists n, parse unescape id (spell v) = Ok [n] /\ strip n = SSym [] v.
Proof.
  intros unescape id v U N NB. destruct v as [|c v]; [congruence|].
  destruct (spell_start c v) as (c' & v' & E & SS).
  assert (P : Program unescape (spell (c :: v)) [SSym [] (c :: v)]).
  { rewrite <- (spell_unbackslash (c :: v) NB) at 2. rewrite E.
    apply (p_cons _ _ _ []).
    - rewrite <- (app_nil_r (c' :: v')) at 1.
      apply (e_sym unescape [] []); auto.
      + constructor. constructor.
      + rewrite <- E. apply spell_ident.
      + exact I.
    - constructor. apply (trail_blank [] []). constructor. constructor. }
  apply (parse_grammar unescape id) in P as (ns & P & S); [|apply spell_utf8; auto].
  destruct ns as [|n [|]]; inversion S. exists n. auto.
Qed.

Lemma is_utf8 : forall s, forallb (fun c => nat_of_ascii c <=? 127) s = true -> utf8 s.
Proof.
  intros s H. rewrite forallb_forall in H. apply ascii_utf8. apply Forall_forall.
  intros x Hx. apply Nat.leb_le. auto.
Qed.

(** A sufficient test for [readable] on ASCII trees, for examples. *)
Definition blankb (c : ascii) : bool := ch c LF || ch c CR || ch c TAB || ch c " ".
Definition delimb (c : ascii) : bool := blankb c || ch c "(" || ch c ")" || ch c DQ.
Definition plainb (c : ascii) : bool := negb (delimb c) && negb (ch c BS).
Definition numb (c : ascii) : bool := between 48 57 c || ch c "+" || ch c "-".
Definition symb (c : ascii) : bool :=
  negb (delimb c) && negb (numb c) && negb (ch c ":") && negb (ch c ";").
Definition asciib : bytes -> bool := forallb (fun c => nat_of_ascii c <=? 127).
Definition selfb (n : node) : bool :=
  negb (beq (leading_ws n) []) || match n with Lst _ _ _ _ _ | Str _ | Raw _ => true | _ => false end.
Definition apartb (n m : node) : bool :=
  (negb (ends_ident n) || selfb m) &&
  (negb (ends_empty n) || negb (beq (leading_ws m) []) || match m with Str _ => false | _ => true end).
Fixpoint spacedb (ns : list node) : bool :=
  match ns with
  | n :: ((m :: _) as ns') => apartb n m && spacedb ns'
  | _ => true
  end.
Fixpoint readableb (n : node) : bool :=
  forallb blankb (leading_ws n) &&
  match n with
  | Sym a => asciib (a_val a) && forallb plainb (a_val a) &&
             match a_val a with c :: _ => symb c | [] => false end
  | Num a => asciib (a_val a) && forallb plainb (a_val a) &&
             match a_val a with c :: _ => numb c | [] => false end
  | Str a | Raw a => asciib (a_val a)
  | Lst ns _ ew _ _ => forallb blankb ew && spacedb ns && forallb readableb ns
  | Attr k v _ _ => asciib k && forallb plainb k && selfb v && readableb v
  end.

Lemma blankb_ok : forall c, blankb c = true -> blank_char c.
Proof.
  unfold blankb, blank_char. intros c H. repeat rewrite orb_true_iff in H.
  repeat rewrite ch_eq in H. tauto.
Qed.
Lemma blanks_ok : forall w, forallb blankb w = true -> Forall blank_char w.
Proof. intros w H. rewrite forallb_forall in H. apply Forall_forall. intros. apply blankb_ok; auto. Qed.
Lemma delimb_ok : forall c, delimb c = false -> ~ delimiter c.
Proof.
  unfold delimb, delimiter, blankb, blank_char. intros c H X.
  repeat rewrite orb_false_iff in H. repeat rewrite ch_neq in H. tauto.
Qed.
Lemma plainb_ok : forall w, forallb plainb w = true -> Forall plain w.
Proof.
  intros w H. rewrite forallb_forall in H. apply Forall_forall. intros c Hc. specialize (H c Hc).
  apply andb_true_iff in H as [A B]. apply negb_true_iff in A, B. split; [apply delimb_ok; auto|apply ch_neq; auto].
Qed.
Lemma numb_ok : forall c, numb c = true -> number_start c.
Proof.
  unfold numb, number_start. intros c H. repeat rewrite orb_true_iff in H. rewrite !ch_eq in H.
  destruct H as [[H|H]|H]; auto. left. apply between_le in H. exact H.
Qed.
Lemma symb_ok : forall c, symb c = true -> symbol_start c.
Proof.
  unfold symb, symbol_start. intros c H. repeat rewrite andb_true_iff in H.
  rewrite !negb_true_iff in H. destruct H as [[[A B] C] D]. rewrite ch_neq in C, D.
  split; [apply delimb_ok; auto|]. split; auto.
  intros N. unfold numb in B. repeat rewrite orb_false_iff in B. destruct B as [[B1 B2] B3].
  rewrite ch_neq in B2, B3. destruct N as [N|[N|N]]; auto.
  unfold between in B1. unfold digit in N. apply andb_false_iff in B1 as [B1|B1]; apply Nat.leb_gt in B1; lia.
Qed.
Lemma selfb_ok : forall n, selfb n = true -> self_delimiting n.
Proof.
  unfold selfb, self_delimiting. intros n H. apply orb_true_iff in H as [H|H].
  - left. apply negb_true_iff, beq_neq in H. auto.
  - right. destruct n; auto; discriminate.
Qed.
Lemma spacedb_ok : forall ns, spacedb ns = true -> spaced ns.
Proof.
  induction ns as [|n [|m ns] IH]; intros H; try exact I.
  cbn [spacedb] in H. apply andb_true_iff in H as [H1 H2]. split; [|apply IH; auto].
  unfold apartb in H1. apply andb_true_iff in H1 as [A B]. split.
  - intros E. rewrite E in A. apply selfb_ok. exact A.
  - intros E [W S]. rewrite E in B. simpl in B. rewrite W in B. destruct m; try contradiction. discriminate.
Qed.
Lemma readableb_ok : forall n, readableb n = true -> readable n.
Proof.
  induction n using node_ind'; intros H0; simpl in *; apply andb_true_iff in H0 as [W R];
    apply blanks_ok in W; (split; [exact W|]).
  - repeat rewrite andb_true_iff in R. destruct R as [[A B] C]. split; [apply is_utf8; auto|].
    split; [apply plainb_ok; auto|]. destruct (a_val a) as [|c t]; [discriminate|].
    exists c, t. split; auto. apply symb_ok; auto.
  - repeat rewrite andb_true_iff in R. destruct R as [[A B] C]. split; [apply is_utf8; auto|].
    split; [apply plainb_ok; auto|]. destruct (a_val a) as [|c t]; [discriminate|].
    exists c, t. split; auto. apply numb_ok; auto.
  - apply is_utf8; auto.
  - apply is_utf8; auto.
  - repeat rewrite andb_true_iff in R. destruct R as [[A B] C]. split; [apply blanks_ok; auto|].
    split; [apply spacedb_ok; auto|]. clear B W. induction H; [exact I|]. cbn [forallb] in C.
    apply andb_true_iff in C as [C1 C2]. split; [auto|]. exact (IHForall C2).
  - repeat rewrite andb_true_iff in R. destruct R as [[[A B] C] D]. split; [apply is_utf8; auto|].
    split; [apply plain_ident, plainb_ok; auto|]. split; [apply selfb_ok; auto|auto].
Qed.
