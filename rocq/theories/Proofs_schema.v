(** * Proofs about argument schemas *)

From Coq Require Import String List Ascii Bool Arith Lia.
From Verif Require Import Text Res Ast Args Schema Spec_args Spec_schema Proofs_text Proofs_args.
Import ListNotations.

(** ** Patterns *)

Fixpoint pat_ind' (P : pat -> Prop) (HI : forall n, P (PatInt n)) (HS : forall s, P (PatStr s))
  (HL : P PatLit) (HR : forall lo hi c, P (PatRange lo hi c))
  (HO : forall cases, Forall P cases -> P (PatOr cases)) (HX : P PatOther) (p : pat) : P p :=
  match p with
  | PatInt n => HI n | PatStr s => HS s | PatLit => HL | PatRange lo hi c => HR lo hi c
  | PatOr cases => HO cases ((fix go l : Forall P l :=
      match l with
      | [] => Forall_nil P
      | q :: l' => Forall_cons q (pat_ind' P HI HS HL HR HO HX q) (go l')
      end) cases)
  | PatOther => HX
  end.

Fixpoint finites (l : list pat) : res (list argpos) :=
  match l with
  | [] => Ok []
  | c :: l' => let* x := finite c in let* y := finites l' in Ok (x ++ y)
  end.
Lemma finite_or l : finite (PatOr l) = finites l.
Proof. cbn [finite]. induction l as [|c l IH]; [reflexivity|]. cbn [finites]. rewrite <- IH. reflexivity. Qed.

Lemma matches_or l pos : matches (PatOr l) pos = existsb (fun c => matches c pos) l.
Proof. induction l as [|c l IH]; [destruct pos; reflexivity|]. cbn [existsb]. rewrite <- IH. destruct pos; reflexivity. Qed.

Lemma finite_proper p : proper p ->
  exists l, finite p = Ok l /\ l <> [] /\ forall pos, In pos l <-> denotes p pos.
Proof.
  induction p as [n|s| |lo hi c|l IH|] using pat_ind'; intros P; inversion P; subst.
  - exists [PInt n]. split; [reflexivity|]. split; [discriminate|]. intros pos. split.
    + intros [<-|[]]. constructor.
    + intros D. inversion D; subst. left. reflexivity.
  - exists [PStr s]. split; [reflexivity|]. split; [discriminate|]. intros pos. split.
    + intros [<-|[]]. constructor.
    + intros D. inversion D; subst. left. reflexivity.
  - cbn [finite]. eexists. split; [reflexivity|]. split.
    { destruct (hi0 - lo0) eqn:Q; [lia|]. discriminate. }
    intros pos. rewrite in_map_iff. split.
    + intros [i [<- I]]. apply in_seq in I. constructor; lia.
    + intros D. inversion D; subst. exists i. split; [reflexivity|]. apply in_seq. lia.
  - cbn [finite]. eexists. split; [reflexivity|]. split.
    { destruct (S hi0 - lo0) eqn:Q; [lia|]. discriminate. }
    intros pos. rewrite in_map_iff. split.
    + intros [i [<- I]]. apply in_seq in I. constructor; lia.
    + intros D. inversion D; subst. exists i. split; [reflexivity|]. apply in_seq. lia.
  - rewrite finite_or.
    assert (H : exists x, finites l = Ok x /\ (l <> [] -> x <> []) /\
      forall pos, In pos x <-> exists c, In c l /\ denotes c pos).
    { clear P H0. induction l as [|c l IHl].
      - exists []. split; [reflexivity|]. split; [congruence|]. intros pos. split; [intros []|intros [c [[] _]]].
      - inversion IH as [|? ? Hc IH']; subst. inversion H1 as [|? ? Pc Pl]; subst.
        destruct (Hc Pc) as [x [X [Nx Dx]]]. destruct (IHl IH' Pl) as [y [Y [_ Dy]]].
        exists (x ++ y). cbn [finites]. rewrite X, Y. cbn [bind]. split; [reflexivity|]. split.
        { intros _ Z. apply app_eq_nil in Z as [Z _]. contradiction. }
        intros pos. rewrite in_app_iff, Dx, Dy. split.
        + intros [D|[q [I D]]]; [exists c|exists q]; (split; [|exact D]); [left; reflexivity|right; exact I].
        + intros [q [[<-|I] D]]; [left; exact D|right; exists q; auto]. }
    destruct H as [x [X [N D]]]. exists x. split; [exact X|]. split; [auto|].
    intros pos. rewrite D. split.
    + intros [c [I Q]]. econstructor; eauto.
    + intros Q. inversion Q; subst. eauto.
Qed.

Lemma matches_proper p pos : proper p -> matches p pos = true <-> denotes p pos.
Proof.
  induction p as [n|s| |lo hi c|l IH|] using pat_ind'; intros P; inversion P; subst.
  - destruct pos as [i|k]; cbn [matches]; [rewrite Nat.eqb_eq|].
    + split; [intros ->; constructor|intros D; inversion D; reflexivity].
    + split; [discriminate|intros D; inversion D].
  - destruct pos as [i|k]; cbn [matches]; [|rewrite beq_eq].
    + split; [discriminate|intros D; inversion D].
    + split; [intros ->; constructor|intros D; inversion D; reflexivity].
  - destruct pos as [i|k]; cbn [matches].
    + rewrite andb_true_iff, Nat.leb_le, Nat.ltb_lt.
      split; [intros []; constructor; assumption|intros D; inversion D; auto].
    + split; [discriminate|intros D; inversion D].
  - destruct pos as [i|k]; cbn [matches].
    + rewrite andb_true_iff, !Nat.leb_le.
      split; [intros []; constructor; assumption|intros D; inversion D; auto].
    + split; [discriminate|intros D; inversion D].
  - rewrite matches_or, existsb_exists. split.
    + intros [c [I Q]]. rewrite Forall_forall in *. econstructor; [exact I|]. apply IH; auto.
    + intros Q. inversion Q; subst. exists c. split; [assumption|].
      rewrite Forall_forall in *. apply IH; auto.
Qed.

Lemma proper_bounded p : proper p -> bounded p.
Proof.
  induction p as [n|s| |lo hi c|l IH|] using pat_ind'; intros P; inversion P; subst; constructor.
  rewrite Forall_forall in *. auto.
Qed.

Lemma finite_bounded p : (bounded p /\ exists l, finite p = Ok l) \/ (~ bounded p /\ exists x, finite p = Panic x).
Proof.
  induction p as [n|s| |lo hi c|l IH|] using pat_ind'.
  - left. split; [constructor|eexists; reflexivity].
  - left. split; [constructor|eexists; reflexivity].
  - left. split; [constructor|eexists; reflexivity].
  - destruct lo as [lo|], hi as [hi|]; cbn [finite];
      try (right; split; [intros B; inversion B|eexists; reflexivity]).
    left. split; [constructor|]. destruct lo, hi; eexists; reflexivity.
  - rewrite finite_or. induction l as [|q l IHl].
    + left. split; [constructor; constructor|]. exists []. reflexivity.
    + inversion IH as [|? ? Hq Hl]; subst. cbn [finites].
      destruct Hq as [[B [x X]]|[B [x X]]]; rewrite X; cbn [bind].
      * destruct (IHl Hl) as [[C [y Y]]|[C [y Y]]]; rewrite Y; cbn [bind].
        -- left. split; [|eauto]. constructor. constructor; [exact B|]. inversion C; assumption.
        -- right. split; [|eauto]. intros D. inversion D as [| | | |? F]; subst. inversion F; subst.
           apply C. constructor. assumption.
      * right. split; [|eauto]. intros D. inversion D as [| | | |? F]; subst. inversion F; subst. contradiction.
  - right. split; [intros B; inversion B|eexists; reflexivity].
Qed.

(** ** Reading a schema *)

Definition as_arg (m : bool) (t : argtype) : arg := if m then Mandatory t else Optional t.
Definition set_of (p : pat) : list argpos := match finite p with Ok l => l | _ => [] end.
Lemma set_of_proper p pos : proper p -> In pos (set_of p) <-> denotes p pos.
Proof. intros P. destruct (finite_proper p P) as [l [Q [_ D]]]. unfold set_of. rewrite Q. apply D. Qed.

Definition absorb (c : code) (i : item) : code :=
  match i with
  | IRest t => Code (k_rules c) (Some t) (k_num c) (k_named c)
  | IArg m p t =>
      fold_left (enter (as_arg m t)) (set_of p)
        (Code (k_rules c ++ [(p, as_arg m t)]) (k_rest c) (k_num c) (k_named c))
  end.

Lemma kind_of s t : type_name s t ->
  exists k, kind_named s = Some k /\ forall ps ts, typ k ps ts = t ps.
Proof. intros []; eexists; (split; [reflexivity|]); intros; reflexivity. Qed.

Definition ends (ts : list tt) : Prop := ts = [] \/ exists ts', ts = TkPunct "," :: ts'.

Lemma parse_spelled t ts more : spells t ts -> ends more -> parse_type (ts ++ more) = Ok (t, more).
Proof.
  intros S M. inversion S as [s t' N|s t' g N L|s t' g body N| |g L]; subst; cbn [app].
  - destruct (kind_of s t' N) as [k [K T]]. cbn [parse_type]. rewrite K.
    destruct M as [->|[ts' ->]]; rewrite T; reflexivity.
  - destruct (kind_of s t' N) as [k [K T]]. cbn [parse_type]. rewrite K, T.
    destruct L as [L|L]; rewrite L; reflexivity.
  - destruct (kind_of s t' N) as [k [K T]]. cbn [parse_type]. rewrite K.
    change (beq (b "fn") (b "fn")) with true. cbn iota. rewrite T.
    destruct k; try reflexivity. destruct N; discriminate K.
  - destruct M as [->|[ts' ->]]; reflexivity.
  - cbn [parse_type]. change (kind_named (b "list")) with (Some KList).
    destruct L as [L|L]; rewrite L; reflexivity.
Qed.

Definition proper_item (i : item) : Prop := match i with IArg _ p _ => proper p | IRest _ => True end.

Lemma comma_ends ts : ends ts -> comma ts = Ok (tl ts).
Proof. intros [->|[ts' ->]]; reflexivity. Qed.

Lemma finite_ok p : bounded p -> exists l, finite p = Ok l.
Proof. intros P. destruct (finite_bounded p) as [[_ F]|[B _]]; [exact F|contradiction]. Qed.

Lemma read_item fuel i ts more c : item_written i ts -> bounded_item i -> ends more ->
  read_schema (S fuel) (ts ++ more) c = read_schema fuel (tl more) (absorb c i).
Proof.
  intros W P M. inversion W as [g p t ts' G S|g p t ts' G S|t ts' S]; subst; cbn [app].
  - cbn [bounded_item] in P. destruct (finite_ok p P) as [l F].
    cbn [read_schema]. change (beq (b "mandatory") (b "rest")) with false.
    change (beq (b "mandatory") (b "mandatory")) with true. cbn [orb Ascii.eqb].
    change (Ascii.eqb ":" ":") with true. cbn iota.
    rewrite (parse_spelled t ts' more S M). cbn [bind]. rewrite G, F. cbn [bind]. rewrite (comma_ends _ M).
    cbn [bind absorb as_arg]. unfold set_of. rewrite F. reflexivity.
  - cbn [bounded_item] in P. destruct (finite_ok p P) as [l F].
    cbn [read_schema]. change (beq (b "optional") (b "rest")) with false.
    change (beq (b "optional") (b "mandatory")) with false.
    change (beq (b "optional") (b "optional")) with true. cbn [orb].
    change (Ascii.eqb ":" ":") with true. cbn iota.
    rewrite (parse_spelled t ts' more S M). cbn [bind]. rewrite G, F. cbn [bind]. rewrite (comma_ends _ M).
    cbn [bind absorb as_arg]. unfold set_of. rewrite F. reflexivity.
  - cbn [read_schema]. change (beq (b "rest") (b "rest")) with true.
    change (Ascii.eqb ":" ":") with true. cbn iota.
    rewrite (parse_spelled t ts' more S M). cbn [bind]. rewrite (comma_ends _ M). reflexivity.
Qed.

Lemma read_legible sch ts : legible sch ts -> forall fuel c,
  length ts < fuel -> read_schema fuel ts c = Ok (fold_left absorb sch c).
Proof.
  induction 1 as [|w I|i ts W B|i ts l ts' W B R IH]; intros fuel c L.
  - destruct fuel as [|fuel]; [lia|]. reflexivity.
  - destruct fuel as [|fuel]; [lia|]. destruct I as [<-|[<-|[<-|[]]]]; reflexivity.
  - destruct fuel as [|fuel]; [lia|].
    rewrite <- (app_nil_r ts). rewrite (read_item fuel i ts [] c W) by (auto; left; reflexivity).
    destruct fuel as [|fuel]; [|reflexivity]. exfalso. inversion W; subst; cbn in L; lia.
  - destruct fuel as [|fuel]; [lia|]. rewrite app_length in L. cbn [length] in L.
    rewrite (read_item fuel i ts _ c W) by (auto; right; eauto). cbn [tl fold_left].
    apply IH. assert (length ts > 0) by (inversion W; cbn; lia). lia.
Qed.

Lemma bounded_proper_item i : proper_item i -> bounded_item i.
Proof. destruct i; cbn; auto using proper_bounded. Qed.

Lemma read_written sch ts : written sch ts -> Forall proper_item sch -> forall fuel c,
  length ts < fuel -> read_schema fuel ts c = Ok (fold_left absorb sch c).
Proof.
  intros W P. apply read_legible. induction W as [|i ts W|i ts l ts' W R IH]; inversion P; subst.
  - constructor.
  - constructor; [exact W|]. apply bounded_proper_item. assumption.
  - constructor; [exact W| |auto]. apply bounded_proper_item. assumption.
Qed.

(** Conversely, what is read is a schema. *)

Lemma kind_spelled s k : kind_named s = Some k ->
  (s = b "list" /\ k = KList) \/ exists t, type_name s t /\ k <> KList /\ forall ps ts, typ k ps ts = t ps.
Proof.
  unfold kind_named. intros H. cbn [assoc] in H.
  repeat match type of H with
  | (if beq ?x ?y then _ else _) = _ =>
      destruct (beq x y) eqn:Q; [apply beq_eq in Q; injection H as <-; subst s|clear Q]
  end; try discriminate H;
  first [left; split; reflexivity | right; eexists].
  all: split; [constructor|]. all: split; [discriminate|]. all: intros; reflexivity.
Qed.

Lemma spelled_parsed ts : (exists t us more, parse_type ts = Ok (t, more) /\ ts = us ++ more /\ spells t us /\ us <> []) \/
  (exists x, parse_type ts = Panic x) .
Proof.
  destruct ts as [|[s|c|g|] ts]; cbn [parse_type]; try (right; eexists; reflexivity).
  destruct (kind_named s) as [k|] eqn:K; [|right; eexists; reflexivity].
  assert (P : exists t us more, Ok (typ k [] [], ts) = Ok (t, more) /\ TkIdent s :: ts = us ++ more /\ spells t us /\ us <> []).
  { exists (typ k [] []), [TkIdent s], ts. split; [reflexivity|]. split; [reflexivity|]. split; [|discriminate].
    destruct (kind_spelled s k K) as [[-> ->]|(t & N & _ & T)]; [constructor|]. rewrite T. constructor. exact N. }
  destruct ts as [|[f|c|g|] ts]; try (left; exact P).
  - destruct (beq f (b "fn")) eqn:F; [|left; exact P]. apply beq_eq in F. subst f.
    destruct (kind_spelled s k K) as [[-> ->]|(t & N & NL & T)]; [right; eexists; reflexivity|].
    destruct ts as [|[f|c|g|] [|[f'|c'|body|] ts]]; try (right; destruct k; eexists; reflexivity).
    left. exists (typ k [Satisfying (g_test body)] []), [TkIdent s; TkIdent (b "fn"); TkGroup g; TkGroup body], ts.
    split; [destruct k; try reflexivity; contradiction|]. split; [reflexivity|]. split; [|discriminate].
    rewrite T. constructor. exact N.
  - assert (Q : listed g -> exists t us more, Ok (typ k (g_preds g) (g_types g), ts) = Ok (t, more) /\
        TkIdent s :: TkGroup g :: ts = us ++ more /\ spells t us /\ us <> []).
    { intros L. exists (typ k (g_preds g) (g_types g)), [TkIdent s; TkGroup g], ts.
      split; [reflexivity|]. split; [reflexivity|]. split; [|discriminate].
      destruct (kind_spelled s k K) as [[-> ->]|(t & N & _ & T)]; [constructor; exact L|]. rewrite T. constructor; assumption. }
    destruct (g_delim g) eqn:D; try (right; eexists; reflexivity); left; apply Q; [right|left]; exact D.
Qed.

Lemma comma_read ts : (ends ts /\ comma ts = Ok (tl ts)) \/ (exists x, comma ts = Panic x).
Proof.
  destruct ts as [|[s|c|g|] ts]; try (right; eexists; reflexivity); [left; split; [left; reflexivity|reflexivity]|].
  cbn [comma]. destruct (Ascii.eqb_spec c ","); [|right; eexists; reflexivity]. subst c.
  left. split; [right; eauto|reflexivity].
Qed.

Lemma legible_item i us more sch : item_written i us -> bounded_item i -> ends more -> legible sch (tl more) ->
  legible (i :: sch) (us ++ more) \/ (more = [] /\ legible [i] (us ++ more)).
Proof.
  intros W B [->|[ts' ->]] L.
  - right. split; [reflexivity|]. rewrite app_nil_r. constructor; assumption.
  - left. constructor; assumption.
Qed.

Lemma read_back fuel : forall ts c, length ts < fuel ->
  (exists sch, legible sch ts) \/ (exists x, read_schema fuel ts c = Panic x).
Proof.
  induction fuel as [|fuel IH]; intros ts c L; [lia|].
  destruct ts as [|[s|p|g|] ts]; try (right; eexists; reflexivity); [left; exists []; constructor|].
  cbn [length] in L. cbn [read_schema].
  destruct (beq s (b "rest")) eqn:R.
  { apply beq_eq in R. subst s.
    destruct ts as [|[s|p|g|] ts]; try (right; eexists; reflexivity); [left; exists []; constructor; cbn; auto|].
    destruct (Ascii.eqb_spec p ":"); [subst p|right; eexists; reflexivity]. cbn [length] in L.
    destruct (spelled_parsed ts) as [(t & us & more & P & -> & S & N)|[x P]]; rewrite P; cbn [bind]; [|right; eexists; reflexivity].
    destruct (comma_read more) as [[M ->]|[x M]]; [|rewrite M; right; eexists; reflexivity]. cbn [bind].
    assert (LT : length (tl more) < fuel) by (rewrite app_length in L; destruct more; cbn [tl length] in *; lia).
    destruct (IH (tl more) (Code (k_rules c) (Some t) (k_num c) (k_named c)) LT) as [[sch Q]|Q]; [|right; exact Q].
    left. destruct (legible_item (IRest t) (TkIdent (b "rest") :: TkPunct ":" :: us) more sch
      (iw_rest t us S) I M Q) as [Z|[_ Z]]; eexists; exact Z. }
  destruct (beq s (b "mandatory") || beq s (b "optional")) eqn:MO; [|right; eexists; reflexivity].
  assert (W : (s = b "mandatory" \/ s = b "optional")) by
    (apply orb_true_iff in MO as [H|H]; apply beq_eq in H; auto). clear MO R.
  destruct ts as [|[s'|p|g|] ts]; try (right; eexists; reflexivity).
  { left. exists []. constructor. cbn. destruct W; auto. }
  destruct ts as [|[s'|p|g'|] ts]; try (right; eexists; reflexivity).
  destruct (Ascii.eqb_spec p ":"); [subst p|right; eexists; reflexivity]. cbn [length] in L.
  destruct (spelled_parsed ts) as [(t & us & more & P & -> & S & N)|[x P]]; rewrite P; cbn [bind]; [|right; eexists; reflexivity].
  destruct (g_pat g) as [pt|] eqn:G; [|right; eexists; reflexivity].
  destruct (finite_bounded pt) as [[B [l F]]|[_ [x F]]]; rewrite F; cbn [bind]; [|right; eexists; reflexivity].
  destruct (comma_read more) as [[M ->]|[x M]]; [|rewrite M; right; eexists; reflexivity]. cbn [bind].
  assert (LT : length (tl more) < fuel) by (rewrite app_length in L; destruct more; cbn [tl length] in *; lia).
  match goal with |- _ \/ exists x, read_schema fuel (tl more) ?c' = _ =>
    destruct (IH (tl more) c' LT) as [[sch Q]|Q]; [|right; exact Q] end.
  left. destruct W as [-> | ->].
  - destruct (legible_item (IArg true pt t) (TkIdent (b "mandatory") :: TkGroup g :: TkPunct ":" :: us) more sch
      (iw_mandatory g pt t us G S) B M Q) as [Z|[_ Z]]; eexists; exact Z.
  - destruct (legible_item (IArg false pt t) (TkIdent (b "optional") :: TkGroup g :: TkPunct ":" :: us) more sch
      (iw_optional g pt t us G S) B M Q) as [Z|[_ Z]]; eexists; exact Z.
Qed.

Lemma compile_legible ts :
  ((exists c, compile ts = Ok c) <-> exists sch, legible sch ts) /\
  ((exists x, compile ts = Panic x) <-> ~ exists sch, legible sch ts).
Proof.
  assert (A : forall sch, legible sch ts -> exists c, compile ts = Ok c).
  { intros sch Q. eexists. apply (read_legible sch ts Q). lia. }
  unfold compile in *.
  destruct (read_back (S (length ts)) ts (Code [] None [] []) ltac:(lia)) as [Q|[x Q]].
  - destruct Q as [sch Q]. destruct (A sch Q) as [c C]. rewrite C. split; split; eauto.
    + intros [x X]. discriminate X.
    + intros NQ. exfalso. eauto.
  - rewrite Q. split; split.
    + intros [c C]. discriminate C.
    + intros [sch H]. destruct (A sch H) as [c C]. congruence.
    + intros _ [sch H]. destruct (A sch H) as [c C]. congruence.
    + eauto.
Qed.

Lemma consistent_proper sch : consistent sch -> Forall proper_item sch.
Proof. induction 1; constructor; auto. exact I. Qed.

Definition code_of (sch : schema) : code := fold_left absorb sch (Code [] None [] []).

Lemma compiled sch ts : written sch ts -> consistent sch -> compile ts = Ok (code_of sch).
Proof.
  intros W C. unfold compile. apply (read_written sch ts W); [apply consistent_proper, C|lia].
Qed.

(** ** The tables *)

Lemma enter_rules a l : forall c, k_rules (fold_left (enter a) l c) = k_rules c.
Proof. induction l as [|pos l IH]; intros c; [reflexivity|]. cbn. rewrite IH. destruct pos; reflexivity. Qed.
Lemma enter_rest a l : forall c, k_rest (fold_left (enter a) l c) = k_rest c.
Proof. induction l as [|pos l IH]; intros c; [reflexivity|]. cbn. rewrite IH. destruct pos; reflexivity. Qed.

(** What is known about a position. *)
Definition known (c : code) (pos : argpos) : option arg :=
  match pos with PInt i => assoc_nat i (k_num c) | PStr k => assoc k (k_named c) end.

Lemma enter_known a l pos : forall c,
  known (fold_left (enter a) l c) pos = if existsb (argpos_eqb pos) l then Some a else known c pos.
Proof.
  induction l as [|q l IH]; intros c; [reflexivity|]. cbn [fold_left existsb]. rewrite IH.
  destruct (existsb (argpos_eqb pos) l); [rewrite orb_true_r; reflexivity|]. rewrite orb_false_r.
  destruct pos as [i|k], q as [j|j]; reflexivity.
Qed.

Definition rows (sch : schema) : list (pat * arg) :=
  flat_map (fun i => match i with IArg m p t => [(p, as_arg m t)] | IRest _ => [] end) sch.
Lemma rows_app s1 s2 : rows (s1 ++ s2) = rows s1 ++ rows s2.
Proof. apply flat_map_app. Qed.

Lemma rules_of_code sch : k_rules (code_of sch) = rows sch.
Proof.
  unfold code_of. enough (H : forall c, k_rules (fold_left absorb sch c) = k_rules c ++ rows sch) by apply H.
  induction sch as [|i sch IH]; intros c; cbn [fold_left]; [symmetry; apply app_nil_r|].
  rewrite IH. destruct i as [m p t|t]; cbn [absorb rows flat_map].
  - rewrite enter_rules. cbn [k_rules]. rewrite <- app_assoc. reflexivity.
  - reflexivity.
Qed.

Lemma rest_of_code sch : remaining sch (k_rest (code_of sch)).
Proof.
  unfold code_of. induction sch as [|i sch IH] using rev_ind; [constructor|].
  rewrite fold_left_app. cbn [fold_left]. destruct i as [m p t|t]; cbn [absorb].
  - rewrite enter_rest. constructor. exact IH.
  - constructor.
Qed.

Lemma remaining_unique sch o : remaining sch o -> forall o', remaining sch o' -> o = o'.
Proof.
  induction 1 as [|l m p t o R IH|l t]; intros o' R'; inversion R' as [E|l' m' p' t' o1 R1 E|l' t' E]; subst;
    try reflexivity; try (symmetry in E; apply app_eq_nil in E as [_ E]; discriminate);
    try (apply app_eq_nil in E as [_ E]; discriminate);
    try (destruct l'; discriminate);
    try (apply app_inj_tail in E as [E1 E2]; try discriminate; inversion E2; subst; auto).
  all: destruct l; discriminate.
Qed.

Lemma existsb_pos pos l : existsb (argpos_eqb pos) l = true <-> In pos l.
Proof.
  rewrite existsb_exists. split.
  - intros [x [I Q]]. apply argpos_eqb_eq in Q. subst. exact I.
  - intros I. exists pos. split; [exact I|]. apply argpos_eqb_eq. reflexivity.
Qed.

Lemma known_code sch pos a : consistent sch ->
  known (code_of sch) pos = Some a <->
  exists m p t, In (IArg m p t) sch /\ denotes p pos /\ a = as_arg m t.
Proof.
  intros C. unfold code_of.
  enough (H : forall c, known (fold_left absorb sch c) pos = Some a <->
    (exists m p t, In (IArg m p t) sch /\ denotes p pos /\ a = as_arg m t) \/
    (~ claimed sch pos /\ known c pos = Some a)).
  { rewrite H. split; [|auto]. intros [X|[_ X]]; [exact X|]. destruct pos; discriminate. }
  induction C as [|t l C IH|m p t l P Z D C IH]; intros c; cbn [fold_left].
  - split.
    + intros Q. right. split; [|exact Q]. intros (m & p & t & [] & _).
    + intros [(m & p & t & [] & _)|[_ Q]]. exact Q.
  - rewrite IH. split; (intros [(m & p & t' & I & X)|[N Q]]; [left; exists m, p, t'|right]).
    + split; [right; exact I|exact X].
    + split; [|destruct pos; exact Q]. intros (m & p & t' & [I|I] & X); [discriminate|]. apply N. red; eauto.
    + destruct I as [I|I]; [discriminate|]. auto.
    + split; [|destruct pos; exact Q]. intros (m & p & t' & I & X). apply N. exists m, p, t'. split; [right|]; auto.
  - rewrite IH. cbn [absorb]. rewrite enter_known.
    replace (known (Code (k_rules c ++ [(p, as_arg m t)]) (k_rest c) (k_num c) (k_named c)) pos)
      with (known c pos) by (destruct pos; reflexivity).
    split.
    + intros [(m' & p' & t' & I & X)|[N Q]].
      * left. exists m', p', t'. split; [right|]; auto.
      * destruct (existsb (argpos_eqb pos) (set_of p)) eqn:S.
        -- left. injection Q as <-. exists m, p, t. split; [left; reflexivity|]. split; [|reflexivity].
           apply set_of_proper; [exact P|]. apply existsb_pos, S.
        -- right. split; [|exact Q]. intros (m' & p' & t' & [I|I] & X).
           ++ injection I as <- <- <-. apply set_of_proper, existsb_pos in X; [congruence|exact P].
           ++ apply N. red; eauto.
    + intros [(m' & p' & t' & [I|I] & X & A)|[N Q]].
      * injection I as <- <- <-. right. split.
        -- intros (m' & p' & t' & I & Y). exact (D _ _ _ _ I X Y).
        -- rewrite (proj2 (existsb_pos pos (set_of p))) by (apply set_of_proper; auto). subst. reflexivity.
      * left. eauto 7.
      * right. split.
        -- intros (m' & p' & t' & I & X). apply N. exists m', p', t'. split; [right|]; auto.
        -- destruct (existsb (argpos_eqb pos) (set_of p)) eqn:S; [|exact Q]. exfalso. apply N.
           exists m, p, t. split; [left; reflexivity|]. apply set_of_proper; [exact P|]. apply existsb_pos, S.
Qed.

Lemma argpos_dec (x y : argpos) : {x = y} + {x <> y}.
Proof. destruct (argpos_eqb x y) eqn:Q; [left; apply argpos_eqb_eq, Q|right]. intros H. apply argpos_eqb_eq in H. congruence. Defined.

Definition table (sch : schema) : rules :=
  Rules (map (fun '(p, a) => Rule (nodup argpos_dec (set_of p)) a) (rows sch)) (k_rest (code_of sch)).

Lemma in_rows sch p a : In (p, a) (rows sch) <-> exists m t, In (IArg m p t) sch /\ a = as_arg m t.
Proof.
  unfold rows. rewrite in_flat_map. split.
  - intros [[m q t|t] [I J]]; [|destruct J]. destruct J as [J|[]]. injection J as <- <-. eauto.
  - intros [m [t [I ->]]]. exists (IArg m p t). split; [exact I|left; reflexivity].
Qed.

Lemma proper_in sch m p t : consistent sch -> In (IArg m p t) sch -> proper p.
Proof. intros C I. apply consistent_proper in C. rewrite Forall_forall in C. exact (C _ I). Qed.

Lemma rule_for_table sch pos r : consistent sch ->
  rule_for (table sch) pos r <->
  exists m p t, In (IArg m p t) sch /\ denotes p pos /\ r = Rule (nodup argpos_dec (set_of p)) (as_arg m t).
Proof.
  intros C. unfold rule_for, table. cbn [patterns]. rewrite in_map_iff. split.
  - intros [[[p a] [<- I]] J]. cbn [r_pos] in J. apply in_rows in I as [m [t [I ->]]].
    exists m, p, t. split; [exact I|]. split; [|reflexivity].
    apply (set_of_proper p pos (proper_in _ _ _ _ C I)). apply nodup_In in J. exact J.
  - intros (m & p & t & I & D & ->). split.
    + exists (p, as_arg m t). split; [reflexivity|]. apply in_rows. eauto.
    + cbn [r_pos]. apply nodup_In. apply set_of_proper; [exact (proper_in _ _ _ _ C I)|exact D].
Qed.

Lemma NoDup_both {A} (x y : list A) : NoDup x -> NoDup y -> (forall z, In z x -> ~ In z y) -> NoDup (x ++ y).
Proof.
  induction 1 as [|u x N D IH]; intros Y H; [exact Y|]. cbn. constructor.
  - rewrite in_app_iff. intros [I|I]; [contradiction|]. exact (H u (or_introl eq_refl) I).
  - apply IH; [exact Y|]. intros z I. apply H. right. exact I.
Qed.

Lemma table_formed sch : consistent sch -> well_formed (table sch).
Proof.
  intros C. unfold well_formed, table. cbn [patterns]. split.
  - induction C as [|t l C IH|m p t l P Z D C IH]; [constructor|exact IH|].
    change (rows (IArg m p t :: l)) with ((p, as_arg m t) :: rows l). cbn [map flat_map r_pos].
    apply NoDup_both; [apply NoDup_nodup|exact IH|]. intros pos I J. apply nodup_In in I.
    apply (set_of_proper p pos P) in I. apply in_flat_map in J as [r [J K]].
    apply in_map_iff in J as [[q a] [<- J]]. cbn [r_pos] in K. apply nodup_In in K.
    apply in_rows in J as [m' [t' [J _]]].
    apply (set_of_proper q pos (proper_in _ _ _ _ C J)) in K. exact (D _ _ _ _ J I K).
  - apply Forall_forall. intros r I. apply in_map_iff in I as [[p a] [<- I]]. apply in_rows in I as [m [t [I _]]].
    cbn [r_pos]. destruct (finite_proper p (proper_in _ _ _ _ C I)) as [l [F [N _]]].
    unfold set_of. rewrite F. destruct l as [|x l]; [congruence|]. intros Q.
    assert (H : In x (nodup argpos_dec (x :: l))) by (apply nodup_In; left; reflexivity).
    rewrite Q in H. destruct H.
Qed.

(** ** Running *)

Lemma find_rows l pos : (forall p a, In (p, a) l -> proper p) ->
  option_map r_arg (find (rule_matches pos) (map (fun '(p, a) => Rule (nodup argpos_dec (set_of p)) a) l)) =
  option_map snd (find (fun r => matches (fst r) pos) l).
Proof.
  induction l as [|[p a] l IH]; intros P; [reflexivity|]. cbn [map find fst].
  assert (Q : rule_matches pos (Rule (nodup argpos_dec (set_of p)) a) = matches p pos).
  { apply Bool.eq_iff_eq_true. unfold rule_matches. cbn [r_pos].
    rewrite existsb_pos, nodup_In, set_of_proper, matches_proper by (eapply P; left; reflexivity). reflexivity. }
  rewrite Q. destruct (matches p pos); [reflexivity|]. apply IH. intros p' a' I. eapply P. right. exact I.
Qed.

Lemma scan_same sch ps : consistent sch -> forall i m acc,
  scan (code_of sch) ps i m acc = parse_params (table sch) ps i m acc.
Proof.
  intros C. induction ps as [|p ps IH]; intros i m acc; [reflexivity|].
  cbn [scan parse_params].
  assert (F : forall pos, option_map r_arg (find (rule_matches pos) (patterns (table sch))) =
    option_map snd (find (fun r => matches (fst r) pos) (k_rules (code_of sch)))).
  { intros pos. rewrite rules_of_code. apply find_rows. intros q a I. apply in_rows in I as [m' [t [I _]]].
    exact (proper_in _ _ _ _ C I). }
  set (w := match p with Attr k v _ _ => (PStr k, v, i) | _ => (PInt (S i), p, S i) end).
  destruct w as [[pos x] i']. specialize (F pos).
  destruct (find _ (k_rules (code_of sch))) as [[q a]|], (find _ (patterns (table sch))) as [r|]; try discriminate.
  - cbn in F. injection F as <-. destruct (check (argtype_of (r_arg r)) x); try reflexivity. cbn [bind]. apply IH.
  - cbn [table trailing]. destruct (k_rest (code_of sch)) as [t|]; [|reflexivity].
    destruct (check t p); try reflexivity. cbn [bind]. apply IH.
Qed.

Lemma scan_all_same sch call ps : consistent sch ->
  scan_all (code_of sch) call ps = parse_args (table sch) call ps.
Proof.
  intros C. unfold scan_all, parse_args. rewrite (scan_same sch ps C). unfold count_mandatory.
  rewrite rules_of_code.
  change (patterns (table sch)) with (map (fun '(p, a) => Rule (nodup argpos_dec (set_of p)) a) (rows sch)).
  replace (length (List.filter (fun r => is_mandatory (r_arg r)) (map (fun '(p, a) => Rule (nodup argpos_dec (set_of p)) a) (rows sch))))
    with (length (List.filter (fun r => is_mandatory (snd r)) (rows sch))); [reflexivity|].
  induction (rows sch) as [|[p a] l IH]; [reflexivity|]. cbn. destruct (is_mandatory a); cbn; rewrite IH; reflexivity.
Qed.

Lemma parsed_fits rs call ps p : well_formed rs -> parse_args rs call ps = Ok p ->
  forall pos r n, rule_for rs pos r -> get_param p pos = Some n -> fits (argtype_of (r_arg r)) n.
Proof.
  intros W H pos r n R G. unfold parse_args in H.
  destruct (parse_params_iff rs ps 0 0 (Parsed [] [] [])) as [P1 P2].
  destruct (all_fit_dec rs (slots 0 ps)) as [F|F].
  2: { destruct (P2 F) as [e E]. rewrite E in H. discriminate. }
  rewrite (P1 F) in H. cbn [bind] in H. destruct (_ <? _); [discriminate|]. injection H as <-.
  rewrite (gather_get rs pos r _ R) in G. destruct (last_at pos (slots 0 ps)) as [n'|] eqn:L.
  2: { destruct pos; discriminate. }
  injection G as ->. apply last_at_in in L as [q [I ->]].
  rewrite Forall_forall in F. specialize (F _ I). unfold one_fits in F. cbn [fst snd] in F.
  pose proof (find_rule rs pos W) as FR. destruct (find _ _) as [r'|].
  - assert (r' = r) by (eapply rule_unique; eauto). subst. exact F.
  - exfalso. exact (FR r R).
Qed.

(** Extraction of a list of arguments does not depend on its order. *)
Definition missing (p : parsed) (l : list (arg * argpos)) : Prop :=
  exists a pos, In (a, pos) l /\ is_mandatory a = true /\ get_param p pos = None.

Lemma extraction call p l :
  (forall a pos n, In (a, pos) l -> get_param p pos = Some n -> fits (argtype_of a) n) ->
  NoDup (map snd l) ->
  (missing p l /\ mapr (fun '(a, pos) => extract_one call p a pos) l = Err (EErr EArgMissing (node_site call))) \/
  (~ missing p l /\ exists xs, mapr (fun '(a, pos) => extract_one call p a pos) l = Ok xs /\ forall pos v, arg_at pos (concat xs) = Some v <->
      exists a n, In (a, pos) l /\ get_param p pos = Some n /\ convert (argtype_of a) n = Ok v).
Proof.
  induction l as [|[a pos] l IH]; intros F N.
  { right. split; [intros (a & pos & [] & _)|]. exists []. split; [reflexivity|]. intros pos v.
    split; [discriminate|]. intros (a & n & [] & _). }
  inversion N as [|? ? N1 N2]; subst. cbn [mapr]. unfold extract_one at 1 3.
  destruct (get_param p pos) as [n|] eqn:G.
  - destruct (convert_fits (argtype_of a) n) as [v [Cv _]].
    { eapply F; [left; reflexivity|exact G]. }
    rewrite Cv. cbn [bind].
    destruct IH as [[M E]|[M (xs & E & A)]]; [intros; eapply F; [right|]; eauto|exact N2|left|right].
    + rewrite E. split; [|reflexivity]. destruct M as (a' & q & I & X). exists a', q. split; [right; exact I|exact X].
    + rewrite E. cbn [bind]. split.
      { intros (a' & q & [I|I] & X & Y); [injection I as <- <-; congruence|]. apply M. exists a', q. auto. }
      exists ([(pos, v)] :: xs). split; [reflexivity|]. intros q w. cbn [concat app arg_at].
      destruct (argpos_eqb q pos) eqn:Q.
      * apply argpos_eqb_eq in Q. subst q. split.
        -- intros H. injection H as <-. exists a, n. split; [left; reflexivity|auto].
        -- intros (a' & n' & [I|I] & X & Y).
           ++ injection I as <-. rewrite G in X. injection X as <-. rewrite Cv in Y. congruence.
           ++ exfalso. apply N1. change pos with (snd (a', pos)). apply in_map. exact I.
      * rewrite A. split; intros (a' & n' & I & X).
        -- exists a', n'. split; [right; exact I|exact X].
        -- destruct I as [I|I]; [|eauto]. exfalso. injection I as _ <-.
           rewrite (proj2 (argpos_eqb_eq pos pos) eq_refl) in Q. discriminate.
  - destruct (is_mandatory a) eqn:Ma.
    + left. split; [|reflexivity]. exists a, pos. split; [left; reflexivity|auto].
    + cbn [bind]. destruct IH as [[M E]|[M (xs & E & A)]]; [intros; eapply F; [right|]; eauto|exact N2|left|right].
      * rewrite E. split; [|reflexivity]. destruct M as (a' & q & I & X). exists a', q. split; [right; exact I|exact X].
      * rewrite E. cbn [bind]. split.
        { intros (a' & q & [I|I] & X & Y); [injection I as <- <-; congruence|]. apply M. exists a', q. auto. }
        exists ([] :: xs). split; [reflexivity|]. intros q w. cbn [concat app]. rewrite A.
        split; intros (a' & n' & I & X).
        -- exists a', n'. split; [right; exact I|exact X].
        -- destruct I as [I|I]; [|eauto]. injection I as <- <-. destruct X as [X _]. congruence.
Qed.

Lemma mapr_app {A B} (f : A -> res B) x : forall y,
  mapr f (x ++ y) = let* u := mapr f x in let* v := mapr f y in Ok (u ++ v).
Proof.
  induction x as [|a x IH]; intros y; cbn [app mapr bind]; [destruct (mapr f y); reflexivity|].
  destruct (f a); try reflexivity. cbn [bind]. rewrite IH.
  destruct (mapr f x); try reflexivity. cbn [bind]. destruct (mapr f y); reflexivity.
Qed.

Lemma mapr_choose {A} (g : A -> option arg) (pos : A -> argpos) call p l :
  (let* xs := mapr (fun i => match g i with Some a => extract_one call p a (pos i) | None => Ok [] end) l in
   Ok (concat xs)) =
  (let* xs := mapr (fun '(a, pos) => extract_one call p a pos)
     (flat_map (fun i => match g i with Some a => [(a, pos i)] | None => [] end) l) in Ok (concat xs)).
Proof.
  induction l as [|i l IH]; [reflexivity|]. cbn [mapr flat_map]. destruct (g i) as [a|]; cbn [app mapr bind].
  - destruct (extract_one call p a (pos i)); try reflexivity. cbn [bind].
    destruct (mapr _ l); destruct (mapr _ (flat_map _ l)); cbn [bind concat] in *; congruence.
  - destruct (mapr _ l); destruct (mapr _ (flat_map _ l)); cbn [bind concat app] in *; congruence.
Qed.

Definition fields (c : code) (names : list bytes) : list (arg * argpos) :=
  flat_map (fun i => match assoc_nat i (k_num c) with Some a => [(a, PInt i)] | None => [] end) (seq 1 (tuple_len c)) ++
  flat_map (fun k => match assoc k (k_named c) with Some a => [(a, PStr k)] | None => [] end) names.

Lemma generated_fields c names call ps :
  generated c names call ps =
  let* p := scan_all c call ps in
  let* xs := mapr (fun '(a, pos) => extract_one call p a pos) (fields c names) in
  let* rest := match k_rest c with Some t => mapr (convert t) (p_rest p) | None => Ok [] end in
  Ok (Args (concat xs) rest).
Proof.
  unfold generated. destruct (scan_all c call ps) as [p| | | |]; try reflexivity. cbn [bind].
  unfold fields. rewrite mapr_app.
  pose proof (mapr_choose (fun i => assoc_nat i (k_num c)) PInt call p (seq 1 (tuple_len c))) as X.
  pose proof (mapr_choose (fun k => assoc k (k_named c)) PStr call p names) as Y.
  destruct (mapr _ (seq 1 (tuple_len c))) as [xs| | | |];
    destruct (mapr _ (flat_map _ (seq 1 (tuple_len c)))) as [xs'| | | |]; cbn [bind] in X |- *; try discriminate;
    try (injection X as ->; reflexivity); try reflexivity.
  injection X as X.
  destruct (mapr _ names) as [ys| | | |]; destruct (mapr _ (flat_map _ names)) as [ys'| | | |]; cbn [bind] in Y |- *;
    try discriminate; try (injection Y as ->; reflexivity); try reflexivity.
  injection Y as Y. rewrite concat_app, X, Y. reflexivity.
Qed.

Lemma in_fields sch names a pos : consistent sch -> names_of sch names ->
  In (a, pos) (fields (code_of sch) names) <-> exists m p t, In (IArg m p t) sch /\ denotes p pos /\ a = as_arg m t.
Proof.
  intros C [ND NM]. rewrite <- (known_code sch pos a C). unfold fields. rewrite in_app_iff, !in_flat_map. split.
  - intros [[i [_ I]]|[k [_ I]]].
    + destruct (assoc_nat i (k_num (code_of sch))) as [a'|] eqn:Q; [|destruct I].
      destruct I as [I|[]]. injection I as <- <-. exact Q.
    + destruct (assoc k (k_named (code_of sch))) as [a'|] eqn:Q; [|destruct I].
      destruct I as [I|[]]. injection I as <- <-. exact Q.
  - intros H. assert (H' := H). rewrite (known_code sch pos a C) in H'. destruct pos as [i|k]; cbn [known] in H.
    + left. exists i. rewrite H. split; [|left; reflexivity]. apply in_seq.
      assert (i <> 0).
      { intros ->. destruct H' as (m & p & t & I & D & _). clear -C I D.
        induction C as [|t' l C IH|m' p' t' l P Z N C IH]; [destruct I| |]; destruct I as [I|I]; try discriminate; auto.
        injection I as -> -> ->. contradiction. }
      assert (i <= tuple_len (code_of sch)); [|lia]. unfold tuple_len. clear -H.
      induction (k_num (code_of sch)) as [|[j x] l IH]; [discriminate|]. cbn [assoc_nat] in H.
      cbn [map fst]. change (list_max (j :: map fst l)) with (Nat.max j (list_max (map fst l))).
      destruct (i =? j) eqn:Q; [apply Nat.eqb_eq in Q; subst; lia|]. specialize (IH H). lia.
    + right. exists k. rewrite H. split; [|left; reflexivity]. apply NM.
      destruct H' as (m & p & t & I & D & _). red; eauto.
Qed.

Lemma fields_nodup c names : NoDup names -> NoDup (map snd (fields c names)).
Proof.
  intros N. unfold fields. rewrite map_app.
  assert (K : forall {A} (g : A -> option arg) (f : A -> argpos) l, (forall x y, f x = f y -> x = y) -> NoDup l ->
    NoDup (map snd (flat_map (fun i => match g i with Some a => [(a, f i)] | None => [] end) l)) /\
    forall q, In q (map snd (flat_map (fun i => match g i with Some a => [(a, f i)] | None => [] end) l)) ->
      exists i, In i l /\ q = f i).
  { intros A g f l J D. induction D as [|x l NI D [IH1 IH2]]; [split; [constructor|intros q []]|].
    cbn [flat_map]. rewrite map_app. destruct (g x) as [a|]; cbn [map app snd].
    - split.
      + constructor; [|exact IH1]. intros I. apply IH2 in I as [i [I Q]]. apply J in Q. subst. contradiction.
      + intros q [<-|I]; [exists x; split; [left|]; reflexivity|]. apply IH2 in I as [i [I ->]]. exists i. split; [right|]; auto.
    - split; [exact IH1|]. intros q I. apply IH2 in I as [i [I ->]]. exists i. split; [right|]; auto. }
  destruct (K nat (fun i => assoc_nat i (k_num c)) PInt (seq 1 (tuple_len c))) as [A1 A2];
    [intros; congruence|apply seq_NoDup|].
  destruct (K bytes (fun k => assoc k (k_named c)) PStr names) as [B1 B2]; [intros; congruence|exact N|].
  apply NoDup_both; [exact A1|exact B1|]. intros z I J. apply A2 in I as [i [_ ->]]. apply B2 in J as [k [_ J]]. discriminate.
Qed.

Lemma generated_same sch names call ps : consistent sch -> names_of sch names ->
  same_args (generated (code_of sch) names call ps) (arguments (table sch) call ps).
Proof.
  intros C NM. rewrite generated_fields, (scan_all_same sch call ps C). unfold arguments.
  pose proof (table_formed sch C) as W. pose proof (parsed_fits (table sch) call ps) as PF.
  destruct (parse_args (table sch) call ps) as [p|e| | |] eqn:P; try (cbn; auto; fail).
  2,3,4: exfalso; unfold parse_args in P;
    destruct (parse_params_iff (table sch) ps 0 0 (Parsed [] [] [])) as [P1 P2];
    destruct (all_fit_dec (table sch) (slots 0 ps)) as [F|F];
    [rewrite (P1 F) in P; cbn [bind] in P; destruct (_ <? _) in P; discriminate
    |destruct (P2 F) as [e E]; rewrite E in P; discriminate].
  cbn [bind]. specialize (PF p W eq_refl).
  set (T2 := fields (code_of sch) names).
  set (T1 := flat_map (fun r => map (pair (r_arg r)) (r_pos r)) (patterns (table sch))).
  assert (S12 : forall a pos, In (a, pos) T2 <-> In (a, pos) T1).
  { intros a pos. unfold T1, T2. rewrite (in_fields sch names a pos C NM), in_table. split.
    - intros (m & q & t & I & D & ->). eexists. split; [apply (rule_for_table sch pos _ C)|]; eauto 7.
    - intros (r & R & <-). apply (rule_for_table sch pos r C) in R as (m & q & t & I & D & ->). eauto 7. }
  assert (FT : forall a pos n, In (a, pos) T1 -> get_param p pos = Some n -> fits (argtype_of a) n).
  { intros a pos n I G. unfold T1 in I. apply in_table in I as (r & R & <-). exact (PF pos r n R G). }
  assert (MI : missing p T2 <-> missing p T1).
  { unfold missing. split; intros (a & pos & I & X); exists a, pos; (split; [apply S12, I|exact X]). }
  assert (N1 : NoDup (map snd T1)) by (unfold T1; rewrite table_nodup; apply W).
  assert (N2 : NoDup (map snd T2)) by (apply fields_nodup, NM).
  destruct (extraction call p T1 FT N1) as [[M1 E1]|[M1 (xs & E1 & A1)]];
    (destruct (extraction call p T2) as [[M2 E2]|[M2 (ys & E2 & A2)]];
      [intros a pos n I; apply FT, S12, I|exact N2| |]); try (exfalso; tauto);
    fold T1 T2; rewrite E1, E2; cbn [bind]; [reflexivity|].
  change (trailing (table sch)) with (k_rest (code_of sch)).
  pose proof (tame_arguments (table sch) call ps W) as TA. unfold arguments in TA. rewrite P in TA. cbn [bind] in TA.
  fold T1 in TA. rewrite E1 in TA. cbn [bind] in TA. change (trailing (table sch)) with (k_rest (code_of sch)) in TA.
  destruct (match k_rest (code_of sch) with Some t => mapr (convert t) (p_rest p) | None => Ok [] end) as [vs|e| | |];
    cbn [bind] in *; [|reflexivity|destruct TA as [[? TA]|[? TA]]; discriminate..].
  split; [|reflexivity]. cbn [x_args]. intros pos.
  assert (Q : forall v, arg_at pos (concat ys) = Some v <-> arg_at pos (concat xs) = Some v).
  { intros v. rewrite A1, A2. split; intros (a & n & I & X); exists a, n; (split; [apply S12, I|exact X]). }
  destruct (arg_at pos (concat ys)) as [v|] eqn:Y.
  - symmetry. apply Q. reflexivity.
  - destruct (arg_at pos (concat xs)) as [v|] eqn:X; [|reflexivity]. exfalso. discriminate (proj2 (Q v) eq_refl).
Qed.

(** ** What the table accepts *)

Lemma accepted_obeys sch ps : consistent sch -> accepted (table sch) ps <-> obeys sch ps.
Proof.
  intros C. unfold accepted, obeys.
  assert (CL : forall pos, (forall r, ~ rule_for (table sch) pos r) <-> ~ claimed sch pos).
  { intros pos. split.
    - intros N (m & p & t & I & D). eapply N. apply (rule_for_table sch pos _ C). eauto 7.
    - intros N r R. apply (rule_for_table sch pos r C) in R as (m & p & t & I & D & _). apply N. red; eauto. }
  split; intros (A & B & M).
  - split; [|split].
    + intros pos x m p t I J D. specialize (A pos x (Rule (nodup argpos_dec (set_of p)) (as_arg m t)) I).
      replace t with (argtype_of (as_arg m t)) by (destruct m; reflexivity). apply A.
      apply (rule_for_table sch pos _ C). eauto 7.
    + intros pos x I N. destruct (B pos x I) as [t [T F]]; [apply CL, N|]. exists t. split; [|exact F].
      cbn in T. rewrite <- T. apply rest_of_code.
    + intros p t pos I D. apply (M pos (Rule (nodup argpos_dec (set_of p)) (as_arg true t)) t); [|reflexivity].
      apply (rule_for_table sch pos _ C). eauto 7.
  - split; [|split].
    + intros pos x r I R. apply (rule_for_table sch pos r C) in R as (m & p & t & J & D & ->).
      cbn [r_arg]. replace (argtype_of (as_arg m t)) with t by (destruct m; reflexivity). eauto.
    + intros pos x I N. destruct (B pos x I) as [t [T F]]; [apply CL, N|]. exists t. split; [|exact F].
      exact (remaining_unique _ _ (rest_of_code sch) _ T).
    + intros pos r t R Q. apply (rule_for_table sch pos r C) in R as (m & p & t' & J & D & ->).
      cbn [r_arg] in Q. destruct m; [|discriminate]. eauto.
Qed.

Lemma claimed_rule sch pos : consistent sch -> has_rule (table sch) pos = true <-> claimed sch pos.
Proof.
  intros C. rewrite has_rule_iff. split.
  - intros [r R]. apply (rule_for_table sch pos r C) in R as (m & p & t & I & D & _). red; eauto.
  - intros (m & p & t & I & D). eexists. apply (rule_for_table sch pos _ C). eauto 7.
Qed.

Lemma surplus_unclaimed sch ps : consistent sch -> unclaimed sch (slots 0 ps) (surplus (table sch) ps).
Proof.
  intros C. unfold surplus. induction (slots 0 ps) as [|[pos x] l IH]; [constructor|]. cbn [filter].
  destruct (has_rule (table sch) pos) eqn:H; cbn [negb].
  - apply (claimed_rule sch pos C) in H. cbn. constructor; assumption.
  - cbn. constructor; [|assumption]. intros K. apply (claimed_rule sch pos C) in K. congruence.
Qed.

Lemma run_schema sch names call ps : consistent sch -> names_of sch names ->
  (obeys sch ps -> exists x, generated (code_of sch) names call ps = Ok x /\ unpacked sch ps x) /\
  (~ obeys sch ps -> exists e, generated (code_of sch) names call ps = Err e).
Proof.
  intros C N. pose proof (generated_same sch names call ps C N) as S.
  destruct (arguments_spec (table sch) call ps (table_formed sch C)) as [A B].
  rewrite (accepted_obeys sch ps C) in A, B. split.
  - intros O. destruct (A O) as (y & Y & F1 & F2). rewrite Y in S.
    destruct (generated (code_of sch) names call ps) as [x| | | |]; try contradiction.
    destruct S as [S1 S2]. exists x. split; [reflexivity|]. split; [|split].
    + intros m p t pos I D. rewrite S1.
      specialize (F1 pos (Rule (nodup argpos_dec (set_of p)) (as_arg m t))).
      cbn [r_arg] in F1. replace (argtype_of (as_arg m t)) with t in F1 by (destruct m; reflexivity).
      apply F1. apply (rule_for_table sch pos _ C). eauto 7.
    + intros pos v H. rewrite S1 in H.
      destruct (has_rule (table sch) pos) eqn:HR; [apply (claimed_rule sch pos C), HR|exfalso].
      clear -Y H HR C. unfold arguments in Y. destruct (parse_args (table sch) call ps) as [p| | | |]; try discriminate.
      cbn [bind] in Y. set (l := flat_map (fun r => map (pair (r_arg r)) (r_pos r)) (patterns (table sch))) in Y.
      assert (NI : forall a, ~ In (a, pos) l).
      { intros a I. unfold l in I. apply in_table in I as (r & R & _).
        assert (has_rule (table sch) pos = true) by (apply has_rule_iff; eauto). congruence. }
      assert (K : forall xs, mapr (fun '(a, pos) => extract_one call p a pos) l = Ok xs -> arg_at pos (concat xs) = None).
      { clear -NI. induction l as [|[a q] l IH]; intros xs E; [injection E as <-; reflexivity|].
        cbn [mapr] in E. unfold bind in E. destruct (extract_one call p a q) as [ys| | | |] eqn:X; try discriminate.
        destruct (mapr _ l) as [zs| | | |]; try discriminate. injection E as <-. cbn [concat].
        assert (Z : arg_at pos (concat zs) = None).
        { apply IH; [intros a' I; apply (NI a'); right; exact I|reflexivity]. }
        unfold extract_one, bind in X. destruct (get_param p q).
        - destruct (convert _ _); try discriminate. injection X as <-. cbn.
          destruct (argpos_eqb pos q) eqn:Q; [|exact Z]. apply argpos_eqb_eq in Q. subst.
          exfalso. apply (NI a). left. reflexivity.
        - destruct (is_mandatory a); [discriminate|]. injection X as <-. exact Z. }
      destruct (mapr _ l) as [xs| | | |]; try discriminate. cbn [bind] in Y. specialize (K xs eq_refl).
      destruct (match trailing (table sch) with Some t => mapr (convert t) (p_rest p) | None => Ok [] end); try discriminate.
      cbn [bind] in Y. injection Y as <-. cbn [x_args] in H. congruence.
    + exists (surplus (table sch) ps). split; [apply surplus_unclaimed, C|]. rewrite S2.
      change (trailing (table sch)) with (k_rest (code_of sch)) in F2. pose proof (rest_of_code sch) as R.
      destruct (k_rest (code_of sch)) as [t|]; [left; eauto|right]. split; [exact R|]. split; [|exact F2].
      pose proof (surplus_unclaimed sch ps C) as U. destruct O as (_ & O & _).
      assert (L : forall l r, unclaimed sch l r -> (forall pos x, In (pos, x) l -> In (pos, x) (slots 0 ps)) -> r = []).
      { clear -O R. induction 1 as [|pos x l r NC U IH|pos x l r NC U IH]; intros H; [reflexivity| |].
        - exfalso. destruct (O pos x) as [t [T _]]; [apply H; left; reflexivity|exact NC|].
          pose proof (remaining_unique _ _ R _ T). discriminate.
        - apply IH. intros pos' x' I. apply H. right. exact I. }
      eapply L; [exact U|auto].
  - intros O. destruct (B O) as [e Y]. rewrite Y in S.
    destruct (generated (code_of sch) names call ps) as [|e'| | |]; try contradiction. eauto.
Qed.

Lemma compiles sch ts rs : written sch ts -> consistent sch -> table sch = rs -> compiles_to ts rs.
Proof.
  intros W C <-. exists sch, (code_of sch). split; [exact W|]. split; [exact C|]. split; [exact (compiled sch ts W C)|].
  intros names call ps N. exact (generated_same sch names call ps C N).
Qed.
