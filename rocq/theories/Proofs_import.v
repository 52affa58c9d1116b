(** * Proofs about %yaml, %toml, %markdown, %date, %timestamp and %glob *)

From Coq Require Import String List Ascii Bool Arith NArith ZArith Lia Permutation Sorting.Sorted.
From Verif Require Import Text Lossy Res Ast Args Env Scope State Bind Data Paths Sorting Expander Numbers
  Spec_args Spec_bind Spec_expand Spec_builtin Spec_control Spec_scope Spec_data Spec_world Proofs_text Proofs_ast Proofs_run
  Proofs_eval Proofs_args Proofs_builtin Proofs_simple Proofs_get Proofs_data Proofs_world.
Import ListNotations.

Lemma bind_bind {A B C} (q : res A) (f : A -> res B) (g : B -> res C) :
  bind (bind q f) g = bind q (fun x => bind (f x) g).
Proof. destruct q; reflexivity. Qed.
Lemma bind_ext_res {A B} (q : res A) (f g : A -> res B) : (forall x, f x = g x) -> bind q f = bind q g.
Proof. intros H. destruct q; cbn; auto. Qed.

Lemma accepted_yaml vs :
  accepted rules_yaml vs <->
  exists p a, positionals vs = [p] /\ (p = Str a \/ p = Raw a) /\
    options vs (fun k v => k = b "separator" /\ literal v).
Proof.
  rewrite (accepted_alt _ _ wf_yaml). split.
  - intros [A [B M]].
    assert (G : given (PInt 1) vs <> None).
    { apply M with (r := mandatory 1 (TString [])) (t := TString []); [rule|reflexivity]. }
    cbn in G. destruct (positionals vs) as [|p [|x rest]] eqn:P; cbn in G; try congruence.
    + pose proof (A 0 p eq_refl) as A1. apply fits_string in A1 as [a Q].
      exists p, a. split; [reflexivity|]. split; [exact Q|].
      intros k w st ws I. specialize (B _ _ _ _ I). revert B. table.
      destruct (beq k (b "separator")) eqn:K; cbn -[fits b].
      * apply beq_eq in K. intros F. split; [exact K|]. apply fits_lit, F.
      * intros [t [Q' F]]. inversion Q'.
    + exfalso. destruct (A 1 x eq_refl) as [t [Q _]]. discriminate.
  - intros [p [a [P [L O]]]]. split; [|split].
    + intros j q H. rewrite P in H. destruct j as [|j]; cbn in H; try (inversion H; subst); table.
      * apply fits_string. eauto.
      * destruct j; discriminate.
    + intros k w st ws I. destruct (O _ _ _ _ I) as [-> T]. table. apply fits_lit, T.
    + intros pos r t [[<-|[<-|[]]] Hp] Ht; try discriminate; destruct Hp as [<-|[]]; cbn; rewrite P; discriminate.
Qed.

Lemma accepted_markdown vs :
  accepted rules_markdown vs <->
  exists p a, positionals vs = [p] /\ (p = Str a \/ p = Raw a) /\
    options vs (fun k v => (k = b "separator" /\ literal v) \/
      (k = b "only" /\ text_among [b "frontmatter"; b "content"] v)).
Proof.
  rewrite (accepted_alt _ _ wf_markdown). split.
  - intros [A [B M]].
    assert (G : given (PInt 1) vs <> None).
    { apply M with (r := mandatory 1 (TString [])) (t := TString []); [rule|reflexivity]. }
    cbn in G. destruct (positionals vs) as [|p [|x rest]] eqn:P; cbn in G; try congruence.
    + pose proof (A 0 p eq_refl) as A1. apply fits_string in A1 as [a Q].
      exists p, a. split; [reflexivity|]. split; [exact Q|].
      intros k w st ws I. specialize (B _ _ _ _ I). revert B. table.
      destruct (beq k (b "only")) eqn:K1; [|destruct (beq k (b "separator")) eqn:K2]; cbn -[fits b].
      * apply beq_eq in K1. intros F. right. split; [exact K1|]. apply (fits_one_of [b "frontmatter"; b "content"]) in F; [exact F|discriminate].
      * apply beq_eq in K2. intros F. left. split; [exact K2|]. apply fits_lit, F.
      * intros [t [Q' F]]. inversion Q'.
    + exfalso. destruct (A 1 x eq_refl) as [t [Q _]]. discriminate.
  - intros [p [a [P [L O]]]]. split; [|split].
    + intros j q H. rewrite P in H. destruct j as [|j]; cbn in H; try (inversion H; subst); table.
      * apply fits_string. eauto.
      * destruct j; discriminate.
    + intros k w st ws I. destruct (O _ _ _ _ I) as [[-> T]|[-> T]]; table.
      * apply fits_lit, T.
      * apply (fits_one_of [b "frontmatter"; b "content"]); [discriminate|exact T].
    + intros pos r t [[<-|[<-|[<-|[]]]] Hp] Ht; try discriminate; destruct Hp as [<-|[]]; cbn; rewrite P; discriminate.
Qed.

Lemma accepted_date vs :
  accepted rules_date vs <->
  exists f time, positionals vs = f :: map Num time /\ length time <= 1 /\ literal f /\
    options vs (fun k v => k = b "timezone" /\ exists a, v = Num a).
Proof.
  rewrite (accepted_alt _ _ wf_date). split.
  - intros [A [B M]].
    assert (G : given (PInt 1) vs <> None).
    { apply M with (r := mandatory 1 lit) (t := lit); [rule|reflexivity]. }
    assert (O : options vs (fun k v => k = b "timezone" /\ exists a, v = Num a)).
    { intros k w st ws I. specialize (B _ _ _ _ I). revert B. table.
      destruct (beq k (b "timezone")) eqn:K; cbn -[fits b].
      - apply beq_eq in K. intros F. split; [exact K|]. apply fits_number, F.
      - intros [t [Q' F]]. inversion Q'. }
    cbn in G. destruct (positionals vs) as [|f [|t [|x rest]]] eqn:P; cbn in G; try congruence.
    + exists f, []. split; [reflexivity|]. split; [cbn; lia|]. split; [|exact O]. apply fits_lit, (A 0 f eq_refl).
    + pose proof (A 1 t eq_refl) as A2. apply fits_number in A2 as [a ->].
      exists f, [a]. split; [reflexivity|]. split; [cbn; lia|]. split; [|exact O]. apply fits_lit, (A 0 f eq_refl).
    + exfalso. destruct (A 2 x eq_refl) as [t' [Q _]]. discriminate.
  - intros [f [time [P [L [F O]]]]]. split; [|split].
    + intros j q H. rewrite P in H. destruct j as [|[|j]]; cbn in H.
      * inversion H; subst. table. apply fits_lit, F.
      * destruct time as [|a time]; [discriminate|]. cbn in H. inversion H; subst. table. apply fits_number. eauto.
      * destruct time as [|a [|a' time]]; cbn in H, L; try lia; destruct j; discriminate.
    + intros k w st ws I. destruct (O _ _ _ _ I) as [-> T]. table. apply fits_number, T.
    + intros pos r t [[<-|[<-|[<-|[]]]] Hp] Ht; try discriminate; destruct Hp as [<-|[]]; cbn; rewrite P; discriminate.
Qed.

Lemma accepted_timestamp vs :
  accepted rules_timestamp vs <->
  exists f d, positionals vs = [f; d] /\ literal f /\ literal d /\
    options vs (fun k v => k = b "timezone" /\ exists a, v = Num a).
Proof.
  rewrite (accepted_alt _ _ wf_timestamp). split.
  - intros [A [B M]].
    assert (G : given (PInt 2) vs <> None).
    { apply M with (r := mandatory 2 lit) (t := lit); [rule|reflexivity]. }
    assert (O : options vs (fun k v => k = b "timezone" /\ exists a, v = Num a)).
    { intros k w st ws I. specialize (B _ _ _ _ I). revert B. table.
      destruct (beq k (b "timezone")) eqn:K; cbn -[fits b].
      - apply beq_eq in K. intros F. split; [exact K|]. apply fits_number, F.
      - intros [t [Q' F]]. inversion Q'. }
    cbn in G. destruct (positionals vs) as [|f [|t [|x rest]]] eqn:P; cbn in G; try congruence.
    + exists f, t. split; [reflexivity|]. split; [apply fits_lit, (A 0 f eq_refl)|]. split; [|exact O]. apply fits_lit, (A 1 t eq_refl).
    + exfalso. destruct (A 2 x eq_refl) as [t' [Q _]]. discriminate.
  - intros [f [d [P [L [F O]]]]]. split; [|split].
    + intros j q H. rewrite P in H. destruct j as [|[|j]]; cbn in H; try (inversion H; subst); table.
      * apply fits_lit, L.
      * apply fits_lit, F.
      * destruct j; discriminate.
    + intros k w st ws I. destruct (O _ _ _ _ I) as [-> T]. table. apply fits_number, T.
    + intros pos r t [[<-|[<-|[<-|[]]]] Hp] Ht; try discriminate; destruct Hp as [<-|[]]; cbn; rewrite P; discriminate.
Qed.

Lemma accepted_glob vs :
  accepted rules_glob vs <->
  exists p, positionals vs = [p] /\ literal p /\
    options vs (fun k v => (k = b "type" /\ text_among [b "file"; b "directory"; b "any"] v) \/
      (k = b "sort" /\ text_among [b "modified"; b "created"; b "name"; b "type"; b "none"] v) \/
      (k = b "order" /\ text_among [b "ascending"; b "descending"] v)).
Proof.
  rewrite (accepted_alt _ _ wf_glob). split.
  - intros [A [B M]].
    assert (G : given (PInt 1) vs <> None).
    { apply M with (r := mandatory 1 lit) (t := lit); [rule|reflexivity]. }
    cbn in G. destruct (positionals vs) as [|p [|x rest]] eqn:P; cbn in G; try congruence.
    + exists p. split; [reflexivity|]. split; [apply fits_lit, (A 0 p eq_refl)|].
      intros k w st ws I. specialize (B _ _ _ _ I). revert B. table.
      destruct (beq k (b "type")) eqn:K1; [|destruct (beq k (b "sort")) eqn:K2; [|destruct (beq k (b "order")) eqn:K3]]; cbn -[fits b one_of].
      * apply beq_eq in K1. intros F. left. split; [exact K1|]. apply (fits_one_of [b "file"; b "directory"; b "any"]) in F; [exact F|discriminate].
      * apply beq_eq in K2. intros F. right. left. split; [exact K2|]. apply (fits_one_of [b "modified"; b "created"; b "name"; b "type"; b "none"]) in F; [exact F|discriminate].
      * apply beq_eq in K3. intros F. right. right. split; [exact K3|]. apply (fits_one_of [b "ascending"; b "descending"]) in F; [exact F|discriminate].
      * intros [t [Q' F]]. inversion Q'.
    + exfalso. destruct (A 1 x eq_refl) as [t [Q _]]. discriminate.
  - intros [p [P [L O]]]. split; [|split].
    + intros j q H. rewrite P in H. destruct j as [|j]; cbn in H; try (inversion H; subst); table.
      * apply fits_lit, L.
      * destruct j; discriminate.
    + intros k w st ws I. destruct (O _ _ _ _ I) as [[-> T]|[[-> T]|[-> T]]]; table.
      * apply (fits_one_of [b "file"; b "directory"; b "any"]); [discriminate|exact T].
      * apply (fits_one_of [b "modified"; b "created"; b "name"; b "type"; b "none"]); [discriminate|exact T].
      * apply (fits_one_of [b "ascending"; b "descending"]); [discriminate|exact T].
    + intros pos r t [[<-|[<-|[<-|[<-|[]]]]] Hp] Ht; try discriminate; destruct Hp as [<-|[]]; cbn; rewrite P; discriminate.
Qed.

Section WithEnv.
Variable E : env.

(** A builtin whose outcome on accepted arguments is described by [R]. *)
Lemma eval_rules name m rs (k : call -> args -> list node -> state -> out) (R : list node -> state -> out -> Prop) args n s r :
  find_builtin name = Some m ->
  (forall ex inv c ps s, run_builtin E ex inv m c ps s =
     let* '(x, vs, s1) := eager ex rs c ps s in k c x vs s1) ->
  well_formed rs ->
  (forall vs s1 r, R vs s1 r -> accepted rs vs) ->
  (forall vs x s1 r, accepted rs vs -> arguments rs n vs = Ok x ->
     (R vs s1 r <-> r = k (ref n s) x vs (noted n s s1) /\ r <> OutOfFuel)) ->
  is_call name args n ->
  eval E n s r <->
  exists q, evals E (received args) (entered n s) q /\
    match q with
    | Ok (vs, s1) => R vs s1 r \/ (~ accepted rs vs /\ exists e, r = Err e /\ arguments rs n vs = Err e)
    | _ => fails q r
    end.
Proof.
  intros F K W RA RK C. rewrite (eval_eager E name m rs k args n s r F K C). split.
  - intros [q [Q [-> N]]]. exists q. split; [exact Q|]. destruct q as [[vs s1]|e|p| |]; cbn [bind fails] in *; try reflexivity; [|congruence].
    destruct (arguments_cases rs n vs W) as [[A [x X]] | [A [e X]]]; rewrite X in *; cbn [bind] in *.
    + left. apply (RK vs x s1 _ A X). auto.
    + right. split; [exact A|]. eauto.
  - intros [q [Q H]]. exists q. split; [exact Q|]. destruct q as [[vs s1]|e|p| |]; cbn [bind fails] in *;
      try (subst; split; [reflexivity|discriminate]); [|contradiction].
    destruct H as [H|[A [e [-> X]]]].
    + pose proof (RA _ _ _ H) as A. destruct (arguments_cases rs n vs W) as [[_ [x X]] | [A' _]]; [|contradiction].
      rewrite X. cbn [bind]. apply (RK vs x s1 _ A X), H.
    + rewrite X. split; [reflexivity|discriminate].
Qed.

Lemma val_or_chosen k d vs :
  val_or d (match keyword_value k vs with Some v => atomic v | None => None end) = chosen k d vs.
Proof.
  unfold chosen. destruct (keyword_value k vs) as [v|]; [|reflexivity]. destruct (atomic v); reflexivity.
Qed.

(** ** %yaml and %json *)

Definition yaml_outcome (n : node) (s : state) (vs : list node) (s1 : state) (r : out) : Prop :=
  exists p a, positionals vs = [p] /\ (p = Str a \/ p = Raw a) /\
    options vs (fun k v => k = b "separator" /\ literal v) /\
    r = (let* '(q, defs) := expand_yaml E (a_val a) (chosen (b "separator") (b "/") vs) (node_site n) (x_defs s1) in
         let* ns := q in Ok (ns, touch (ref n s) (set_defs defs (noted n s s1)))) /\ r <> OutOfFuel.

Lemma yaml_fields n vs x : accepted rules_yaml vs -> arguments rules_yaml n vs = Ok x ->
  exists p a, positionals vs = [p] /\ (p = Str a \/ p = Raw a) /\
    options vs (fun k v => k = b "separator" /\ literal v) /\
    need as_atom (PInt 1) x = Ok a /\
    want as_atom (PStr (b "separator")) x =
      Ok (match keyword_value (b "separator") vs with Some v => atomic v | None => None end).
Proof.
  intros A X. apply accepted_yaml in A as [p [a [P [L O]]]]. exists p, a. split; [exact P|]. split; [exact L|]. split; [exact O|]. split.
  - apply (need_atom _ _ _ _ wf_yaml X (PInt 1) (mandatory 1 (TString [])) p); [rule|cbn; rewrite P; reflexivity|destruct L as [->| ->]; reflexivity|reflexivity].
  - apply (want_atom _ _ _ _ wf_yaml X (PStr (b "separator")) (option_named (b "separator") lit)); [rule|reflexivity].
Qed.

Lemma noted_defs n s s1 : x_defs (noted n s s1) = x_defs s1.
Proof. unfold noted, touch. destruct (_ =? _); reflexivity. Qed.

Lemma eval_yaml name args n s r : name = b "yaml" \/ name = b "json" ->
  is_call name args n ->
  eval E n s r <->
  exists q, evals E (received args) (entered n s) q /\
    match q with
    | Ok (vs, s1) => yaml_outcome n s vs s1 r \/
        (~ accepted rules_yaml vs /\ exists e, r = Err e /\ arguments rules_yaml n vs = Err e)
    | _ => fails q r
    end.
Proof.
  intros NM. apply (eval_rules name BYaml rules_yaml
    (fun c x _ s => let* text := need as_atom (PInt 1) x in
       let* sep := want as_atom (PStr (b "separator")) x in
       let* '(r, defs) := expand_yaml E (a_val text) (val_or (b "/") sep) (call_site c) (x_defs s) in
       let* ns := r in Ok (ns, touch c (set_defs defs s)))).
  - destruct NM as [->| ->]; reflexivity.
  - reflexivity.
  - exact wf_yaml.
  - intros vs s1 r' [p [a [P [L [O _]]]]]. apply accepted_yaml. eauto 6.
  - intros vs x s1 r' A X. destruct (yaml_fields n vs x A X) as [p [a [P [L [O [X1 X2]]]]]].
    rewrite X1, X2. cbn [bind]. rewrite val_or_chosen, noted_defs. split.
    + intros [p' [a' [P' [L' [_ H]]]]]. assert (a' = a).
      { rewrite P in P'. inversion P'; subst. destruct L as [->| ->], L' as [L'|L']; congruence. }
      subst a'. exact H.
    + intros H. exists p, a. auto.
Qed.

(** ** %toml *)

Definition toml_outcome (n : node) (s : state) (vs : list node) (s1 : state) (r : out) : Prop :=
  exists p a, positionals vs = [p] /\ (p = Str a \/ p = Raw a) /\
    options vs (fun k v => k = b "separator" /\ literal v) /\
    r = (let '(q, defs) := expand_toml E (a_val a) (chosen (b "separator") (b "/") vs) (node_site n) (x_defs s1) in
         let* ns := q in Ok (ns, touch (ref n s) (set_defs defs (noted n s s1)))) /\ r <> OutOfFuel.

Lemma eval_toml args n s r : is_call (b "toml") args n ->
  eval E n s r <->
  exists q, evals E (received args) (entered n s) q /\
    match q with
    | Ok (vs, s1) => toml_outcome n s vs s1 r \/
        (~ accepted rules_yaml vs /\ exists e, r = Err e /\ arguments rules_yaml n vs = Err e)
    | _ => fails q r
    end.
Proof.
  apply (eval_rules (b "toml") BToml rules_yaml
    (fun c x _ s => let* text := need as_atom (PInt 1) x in
       let* sep := want as_atom (PStr (b "separator")) x in
       let '(r, defs) := expand_toml E (a_val text) (val_or (b "/") sep) (call_site c) (x_defs s) in
       let* ns := r in Ok (ns, touch c (set_defs defs s)))).
  - reflexivity.
  - reflexivity.
  - exact wf_yaml.
  - intros vs s1 r' [p [a [P [L [O _]]]]]. apply accepted_yaml. eauto 6.
  - intros vs x s1 r' A X. destruct (yaml_fields n vs x A X) as [p [a [P [L [O [X1 X2]]]]]].
    rewrite X1, X2. cbn [bind]. rewrite val_or_chosen, noted_defs. split.
    + intros [p' [a' [P' [L' [_ H]]]]]. assert (a' = a).
      { rewrite P in P'. inversion P'; subst. destruct L as [->| ->], L' as [L'|L']; congruence. }
      subst a'. exact H.
    + intros H. exists p, a. auto.
Qed.

(** ** %date and %timestamp *)


Lemma zone_spec o z : zone E o z <-> timezone E o = z.
Proof.
  split.
  - intros [|a H|a h H N|a h secs H R Q]; [reflexivity|cbn; rewrite H; reflexivity| |].
    + apply (timezone_given E a h H), N.
    + destruct (timezone_given E a h H) as [A _]. destruct (A R) as [r [-> Q']].
      rewrite (nearest_unique h r secs Q' Q). reflexivity.
  - intros <-. destruct o as [a|]; [|constructor]. destruct (e_fixed E (a_val a)) as [h|] eqn:H.
    + destruct (timezone_given E a h H) as [A B].
      assert (D : representable h \/ ~ representable h) by (unfold representable; lia).
      destruct D as [D|D]; [destruct (A D) as [r [-> Q]]; econstructor; eauto|rewrite (B D); econstructor; eauto].
    + cbn. rewrite H. constructor. exact H.
Qed.

Lemma within_dec z : within_day z \/ ~ within_day z.
Proof. unfold within_day. lia. Qed.

Lemma dated_spec fmt off zst time r : length time <= 1 ->
  (dated E fmt off zst time r <->
   r = bind (match hd_error time with
    | None => Ok Now
    | Some t =>
        match parse_i64 (a_val t) with
        | None => error EDate (a_site t)
        | Some secs => if e_time_ok E secs then Ok (At secs) else error EDate (a_site t)
        end
    end) (fun time => if east_ok off then
    match e_date E time off fmt with
    | Some text => Ok text
    | None => Panic PUnwrap
    end
  else error EDate zst)).
Proof.
  intros L. unfold error. pose proof (east_within off) as W.
  assert (W' : ~ within_day off -> east_ok off = false).
  { intros N. destruct (east_ok off); [|reflexivity]. exfalso. apply N, W. reflexivity. }
  split.
  - intros [text D Q|t secs text D P T Q|D Q|t secs D P T Q|t H|D|t secs D P T]; cbn [hd_error bind].
    + apply W in D. rewrite D, Q. reflexivity.
    + apply W in D. rewrite P, T. cbn [bind]. rewrite D, Q. reflexivity.
    + apply W in D. rewrite D, Q. reflexivity.
    + apply W in D. rewrite P, T. cbn [bind]. rewrite D, Q. reflexivity.
    + destruct (parse_i64 (a_val t)) as [secs|]; [|reflexivity]. rewrite (H secs eq_refl). reflexivity.
    + rewrite (W' D). reflexivity.
    + rewrite P, T. cbn [bind]. rewrite (W' D). reflexivity.
  - intros ->. destruct time as [|t [|u time]]; [| |cbn in L; lia]; cbn [hd_error bind].
    + destruct (within_dec off) as [D|D].
      * assert (D' := D). apply W in D'. rewrite D'. destruct (e_date E Now off fmt) eqn:Q; constructor; assumption.
      * rewrite (W' D). constructor. exact D.
    + destruct (parse_i64 (a_val t)) as [secs|] eqn:P.
      * destruct (e_time_ok E secs) eqn:T; cbn [bind].
        -- destruct (within_dec off) as [D|D].
           ++ assert (D' := D). apply W in D'. rewrite D'. destruct (e_date E (At secs) off fmt) eqn:Q; econstructor; eassumption.
           ++ rewrite (W' D). econstructor; eassumption.
        -- constructor. intros x X. rewrite P in X. inversion X; subst. exact T.
      * constructor. intros x X. congruence.
Qed.

Lemma timed_spec fmt date off st zst r :
  timed E fmt date off st zst r <->
  r = (if east_ok off then
      match e_parse_date E fmt date with
      | Some t => Ok t
      | None =>
          match e_parse_naive E fmt date with
          | None => error ETimestamp st
          | Some t => if e_time_ok E (t - off)%Z then Ok (t - off)%Z else error ETimestamp st
          end
      end
  else error EDate zst).
Proof.
  unfold error. pose proof (east_within off) as W.
  assert (W' : ~ within_day off -> east_ok off = false).
  { intros N. destruct (east_ok off); [|reflexivity]. exfalso. apply N, W. reflexivity. }
  split.
  - intros [t D Q|t D Q P T|D Q H|D].
    + apply W in D. rewrite D, Q. reflexivity.
    + apply W in D. rewrite D, Q, P, T. reflexivity.
    + apply W in D. rewrite D, Q. destruct (e_parse_naive E fmt date) as [t|]; [|reflexivity]. rewrite (H t eq_refl). reflexivity.
    + rewrite (W' D). reflexivity.
  - intros ->. destruct (within_dec off) as [D|D].
    + assert (D' := D). apply W in D'. rewrite D'. destruct (e_parse_date E fmt date) as [t|] eqn:Q; [constructor; assumption|].
      destruct (e_parse_naive E fmt date) as [t|] eqn:P.
      * destruct (e_time_ok E (t - off)%Z) eqn:T; [constructor; assumption|]. apply timed_bad; auto.
        intros x X. rewrite P in X. inversion X; subst. exact T.
      * apply timed_bad; auto. intros x X. congruence.
    + rewrite (W' D). constructor. exact D.
Qed.


Definition date_outcome (n : node) (s : state) (vs : list node) (s1 : state) (r : out) : Prop :=
  exists f fmt time, positionals vs = f :: map Num time /\ length time <= 1 /\ atomic f = Some fmt /\
    options vs (fun k v => k = b "timezone" /\ exists a, v = Num a) /\
    exists z, zone E (zone_given vs) z /\
    match z with
    | Ok off => exists q, dated E (a_val fmt) off (zone_site n vs) time q /\
        answers (fun text => Str (Atom text (node_site n) (leading_ws n))) (noted n s (noted n s s1)) q r
    | _ => fails z r
    end.

Lemma eval_date args n s r : is_call (b "date") args n ->
  eval E n s r <->
  exists q, evals E (received args) (entered n s) q /\
    match q with
    | Ok (vs, s1) => date_outcome n s vs s1 r \/
        (~ accepted rules_date vs /\ exists e, r = Err e /\ arguments rules_date n vs = Err e)
    | _ => fails q r
    end.
Proof.
  apply (eval_rules (b "date") BDate rules_date
    (fun c x _ s => let* fmt := need as_atom (PInt 1) x in
  let* time := want as_atom (PInt 2) x in
  let* tz := want as_atom (PStr (b "timezone")) x in
  let* offset := timezone E tz in
  let* time :=
    match time with
    | None => Ok Now
    | Some t =>
        match parse_i64 (a_val t) with
        | None => error EDate (a_site t)
        | Some secs => if e_time_ok E secs then Ok (At secs) else error EDate (a_site t)
        end
    end in
  if east_ok offset then
    match e_date E time offset (a_val fmt) with
    | Some text => Ok ([Str (here c text)], touch c s)
    | None => Panic PUnwrap
    end
  else error EDate (match tz with Some a => a_site a | None => call_site c end))).
  - reflexivity.
  - reflexivity.
  - exact wf_date.
  - intros vs s1 r' [f [fmt [time [P [L [F [O _]]]]]]]. apply accepted_date. exists f, time.
    split; [exact P|]. split; [exact L|]. split; [unfold literal; congruence|exact O].
  - intros vs x s1 r' A X. apply accepted_date in A as [f [time [P [L [F O]]]]].
    destruct (atomic f) as [fmt|] eqn:Af; [|exfalso; apply F; exact Af].
    assert (X1 : need as_atom (PInt 1) x = Ok fmt).
    { apply (need_atom _ _ _ _ wf_date X (PInt 1) (mandatory 1 lit) f); [rule|cbn; rewrite P; reflexivity|exact Af|reflexivity]. }
    assert (X2 : want as_atom (PInt 2) x = Ok (hd_error time)).
    { rewrite (want_atom _ _ _ _ wf_date X (PInt 2) (optional 2 (TNumber []))); [|rule|reflexivity].
      cbn. rewrite P. cbn. destruct time; reflexivity. }
    assert (X3 : want as_atom (PStr (b "timezone")) x = Ok (zone_given vs)).
    { apply (want_atom _ _ _ _ wf_date X (PStr (b "timezone")) (option_named (b "timezone") (TNumber []))); [rule|reflexivity]. }
    rewrite X1, X2, X3. cbn [bind]. fold (zone_site n vs).
    change (match zone_given vs with Some a => a_site a | None => call_site (ref n s) end) with (zone_site n vs).
    assert (D : forall off q, dated E (a_val fmt) off (zone_site n vs) time q ->
      (answers (fun text => Str (Atom text (node_site n) (leading_ws n))) (noted n s (noted n s s1)) q r' <->
       r' = bind q (fun text => Ok ([Str (here (ref n s) text)], touch (ref n s) (noted n s s1))) /\ r' <> OutOfFuel)).
    { intros off q H. assert (Q : q <> OutOfFuel) by (destruct H; discriminate).
      destruct q; cbn [answers fails bind]; try (split; [intros ->; split; [reflexivity|discriminate]|intros [-> _]; reflexivity]).
      congruence. }
    split.
    + intros [f' [fmt' [time' [P' [L' [F' [_ [z [Z H]]]]]]]]]. apply zone_spec in Z. rewrite Z.
      assert (f' = f /\ time' = time) as [-> ->].
      { rewrite P in P'. inversion P' as [[Q1 Q2]]. split; [reflexivity|]. clear - Q2. revert time' Q2.
        induction time as [|a time IH]; intros [|a' time'] Q; try discriminate; [reflexivity|]. inversion Q; subst. f_equal. auto. }
      assert (fmt' = fmt) by congruence. subst fmt'.
      destruct z as [off|e|p| |]; cbn [fails bind] in *; try (subst; split; [reflexivity|discriminate]); [|contradiction].
      destruct H as [q [Q H]]. apply (D off q Q) in H as [-> N].
      apply (dated_spec _ _ _ _ _ L) in Q. subst q. split; [|exact N].
      rewrite bind_bind. apply bind_ext_res. intros t. destruct (east_ok off); [|reflexivity].
      destruct (e_date E t off (a_val fmt)); reflexivity.
    + intros [H N]. exists f, fmt, time. split; [exact P|]. split; [exact L|]. split; [exact Af|]. split; [exact O|].
      exists (timezone E (zone_given vs)). split; [apply zone_spec; reflexivity|].
      destruct (timezone E (zone_given vs)) as [off|e|p| |] eqn:Z; cbn [bind fails] in *; try assumption; [|congruence].
      set (q := bind (match hd_error time with
        | None => Ok Now
        | Some t =>
            match parse_i64 (a_val t) with
            | None => error EDate (a_site t)
            | Some secs => if e_time_ok E secs then Ok (At secs) else error EDate (a_site t)
            end
        end) (fun time => if east_ok off then
        match e_date E time off (a_val fmt) with
        | Some text => Ok text
        | None => Panic PUnwrap
        end
      else error EDate (zone_site n vs))).
      exists q. assert (Q : dated E (a_val fmt) off (zone_site n vs) time q) by (apply (dated_spec _ _ _ _ _ L); reflexivity).
      split; [exact Q|]. apply (D off q Q). split; [|exact N]. rewrite H. unfold q.
      rewrite bind_bind. symmetry. apply bind_ext_res. intros t. destruct (east_ok off); [|reflexivity].
      destruct (e_date E t off (a_val fmt)); reflexivity.
Qed.

Definition timestamp_outcome (n : node) (s : state) (vs : list node) (s1 : state) (r : out) : Prop :=
  exists f d fmt date, positionals vs = [f; d] /\ atomic f = Some fmt /\ atomic d = Some date /\
    options vs (fun k v => k = b "timezone" /\ exists a, v = Num a) /\
    exists z, zone E (zone_given vs) z /\
    match z with
    | Ok off => exists q, timed E (a_val fmt) (a_val date) off (node_site n) (zone_site n vs) q /\
        answers (fun t => Num (Atom (show_Z t) (node_site n) (leading_ws n))) (noted n s (noted n s s1)) q r
    | _ => fails z r
    end.

Lemma eval_timestamp args n s r : is_call (b "timestamp") args n ->
  eval E n s r <->
  exists q, evals E (received args) (entered n s) q /\
    match q with
    | Ok (vs, s1) => timestamp_outcome n s vs s1 r \/
        (~ accepted rules_timestamp vs /\ exists e, r = Err e /\ arguments rules_timestamp n vs = Err e)
    | _ => fails q r
    end.
Proof.
  apply (eval_rules (b "timestamp") BTimestamp rules_timestamp
    (fun c x _ s => let* fmt := need as_atom (PInt 1) x in
  let* date := need as_atom (PInt 2) x in
  let* tz := want as_atom (PStr (b "timezone")) x in
  let* offset := timezone E tz in
  if east_ok offset then
    let* t :=
      match e_parse_date E (a_val fmt) (a_val date) with
      | Some t => Ok t
      | None =>
          match e_parse_naive E (a_val fmt) (a_val date) with
          | None => error ETimestamp (call_site c)
          | Some t => if e_time_ok E (t - offset)%Z then Ok (t - offset)%Z
                      else error ETimestamp (call_site c)
          end
      end in
    Ok ([Num (here c (show_Z t))], touch c s)
  else error EDate (match tz with Some a => a_site a | None => call_site c end))).
  - reflexivity.
  - reflexivity.
  - exact wf_timestamp.
  - intros vs s1 r' [f [d [fmt [date [P [F [D [O _]]]]]]]]. apply accepted_timestamp. exists f, d.
    split; [exact P|]. split; [unfold literal; congruence|]. split; [unfold literal; congruence|exact O].
  - intros vs x s1 r' A X. apply accepted_timestamp in A as [f [d [P [F [F2 O]]]]].
    destruct (atomic f) as [fmt|] eqn:Af; [|exfalso; apply F; exact Af].
    destruct (atomic d) as [date|] eqn:Ad; [|exfalso; apply F2; exact Ad].
    assert (X1 : need as_atom (PInt 1) x = Ok fmt).
    { apply (need_atom _ _ _ _ wf_timestamp X (PInt 1) (mandatory 1 lit) f); [rule|cbn; rewrite P; reflexivity|exact Af|reflexivity]. }
    assert (X2 : need as_atom (PInt 2) x = Ok date).
    { apply (need_atom _ _ _ _ wf_timestamp X (PInt 2) (mandatory 2 lit) d); [rule|cbn; rewrite P; reflexivity|exact Ad|reflexivity]. }
    assert (X3 : want as_atom (PStr (b "timezone")) x = Ok (zone_given vs)).
    { apply (want_atom _ _ _ _ wf_timestamp X (PStr (b "timezone")) (option_named (b "timezone") (TNumber []))); [rule|reflexivity]. }
    rewrite X1, X2, X3. cbn [bind].
    change (match zone_given vs with Some a => a_site a | None => call_site (ref n s) end) with (zone_site n vs).
    assert (D : forall off q, timed E (a_val fmt) (a_val date) off (node_site n) (zone_site n vs) q ->
      (answers (fun t => Num (Atom (show_Z t) (node_site n) (leading_ws n))) (noted n s (noted n s s1)) q r' <->
       r' = bind q (fun t => Ok ([Num (here (ref n s) (show_Z t))], touch (ref n s) (noted n s s1))) /\ r' <> OutOfFuel)).
    { intros off q H. assert (Q : q <> OutOfFuel) by (destruct H; discriminate).
      destruct q; cbn [answers fails bind]; try (split; [intros ->; split; [reflexivity|discriminate]|intros [-> _]; reflexivity]).
      congruence. }
    split.
    + intros [f' [d' [fmt' [date' [P' [F' [D' [_ [z [Z H]]]]]]]]]]. apply zone_spec in Z. rewrite Z.
      assert (fmt' = fmt /\ date' = date) as [-> ->] by (rewrite P in P'; inversion P'; subst; split; congruence).
      destruct z as [off|e|p| |]; cbn [fails bind] in *; try (subst; split; [reflexivity|discriminate]); [|contradiction].
      destruct H as [q [Q H]]. apply (D off q Q) in H as [-> N]. apply timed_spec in Q. subst q.
      split; [|exact N]. destruct (east_ok off); reflexivity.
    + intros [H N]. exists f, d, fmt, date. split; [exact P|]. split; [exact Af|]. split; [exact Ad|]. split; [exact O|].
      exists (timezone E (zone_given vs)). split; [apply zone_spec; reflexivity|].
      destruct (timezone E (zone_given vs)) as [off|e|p| |] eqn:Z; cbn [bind fails] in *; try assumption; [|congruence].
      eexists. split; [apply timed_spec; reflexivity|]. apply (D off _ (proj2 (timed_spec _ _ _ _ _ _) eq_refl)).
      split; [|exact N]. rewrite H. destruct (east_ok off); reflexivity.
Qed.

(** ** %glob *)

(** What comes of the entries of a listing. *)
Inductive globbed (t : path_type) (k : sort_key) (ascending : bool) (pat : atom) (s' : state) :
  option (list (option (bytes * option meta))) -> out -> Prop :=
| globbed_pattern : globbed t k ascending pat s' None (Err (EErr EGlob (a_site pat)))
| globbed_error good rest fs : all_found good = Some fs ->
    globbed t k ascending pat s' (Some (good ++ None :: rest)) (Err (EErr EGlob (a_site pat)))
| globbed_panic good rest fs p : all_found good = Some fs ->
    globbed t k ascending pat s' (Some (good ++ Some (p, None) :: rest)) (Panic PUnwrap)
| globbed_ok l out : glob_collect E t k l = Ok (Some out) ->
    globbed t k ascending pat s' (Some l)
      (Ok (path_nodes (a_site pat) (if ascending then out else rev out), s')).

Lemma all_found_split l : all_found l = None -> exists good fs bad rest,
  l = good ++ bad :: rest /\ all_found good = Some fs /\ (bad = None \/ exists p, bad = Some (p, None)).
Proof.
  induction l as [|x l IH]; [discriminate|]. destruct x as [[p [m|]]|]; intros F; cbn in F.
  - destruct (all_found l) as [fs|] eqn:Q; [discriminate|]. destruct (IH eq_refl) as [g [fs [bad [rest [-> [G B]]]]]].
    exists (Some (p, Some m) :: g), (Found p m :: fs), bad, rest. split; [reflexivity|]. split; [cbn; rewrite G; reflexivity|exact B].
  - exists [], [], (Some (p, None)), l. split; [reflexivity|]. split; [reflexivity|]. right. eauto.
  - exists [], [], None, l. split; [reflexivity|]. split; [reflexivity|]. left. reflexivity.
Qed.

Lemma entries_app t good fs rest : all_found good = Some fs ->
  glob_entries t (good ++ rest) = (let* o := glob_entries t rest in Ok (option_map (app (listing t fs)) o)).
Proof.
  revert fs. induction good as [|[[p [m|]]|] l IH]; intros fs F; cbn in F; try discriminate.
  - inversion F. cbn [app listing filter]. destruct (glob_entries t rest) as [[o|]|e|q| |]; reflexivity.
  - destruct (all_found l) as [fs'|]; [|discriminate]. cbn in F. inversion F; subst.
    cbn [glob_entries app listing filter f_meta].
    change (match t with OnlyFiles => is_file m | OnlyDirs => is_dir m | AnyPath => true end) with (wanted t m).
    rewrite (IH fs' eq_refl). destruct (glob_entries t rest) as [[o|]|e|q| |], (wanted t m); reflexivity.
Qed.

Lemma path_nodes_map st fs :
  set_first_ws [] (map (fun f => Str (Atom (lossy (f_path f)) st (b " "))) fs) = path_nodes st fs.
Proof. destruct fs; reflexivity. Qed.

Lemma globbed_spec t k ascending pat s' o r :
  globbed t k ascending pat s' o r <->
  r = match o with
  | None => error EGlob (a_site pat)
  | Some entries =>
      let* set := glob_collect E t k entries in
      match set with
      | None => error EGlob (a_site pat)
      | Some set =>
          let set := if ascending then set else rev set in
          Ok (set_first_ws [] (map (fun f => Str (Atom (lossy (f_path f)) (a_site pat) (b " "))) set), s')
      end
  end.
Proof.
  split.
  - intros [|good rest fs G|good rest fs p G|l out G].
    + reflexivity.
    + unfold glob_collect. rewrite (entries_app _ _ _ _ G). reflexivity.
    + unfold glob_collect. rewrite (entries_app _ _ _ _ G). reflexivity.
    + rewrite G. cbn [bind]. rewrite path_nodes_map. reflexivity.
  - intros ->. destruct o as [l|]; [|constructor]. destruct (all_found l) as [fs|] eqn:F.
    + rewrite (collect_all _ _ _ _ _ F). cbn [bind]. rewrite path_nodes_map. constructor. apply collect_all, F.
    + destruct (all_found_split l F) as [good [fs [bad [rest [-> [G B]]]]]].
      unfold glob_collect. rewrite (entries_app _ _ _ _ G). destruct B as [->|[p ->]]; cbn; econstructor; eassumption.
Qed.

Definition glob_outcome (n : node) (s : state) (vs : list node) (s1 : state) (r : out) : Prop :=
  exists p pat, positionals vs = [p] /\ atomic p = Some pat /\
    options vs (fun k v => (k = b "type" /\ text_among [b "file"; b "directory"; b "any"] v) \/
      (k = b "sort" /\ text_among [b "modified"; b "created"; b "name"; b "type"; b "none"] v) \/
      (k = b "order" /\ text_among [b "ascending"; b "descending"] v)) /\
    globbed (type_named (chosen (b "type") (b "any") vs)) (key_named (chosen (b "sort") (b "none") vs))
      (beq (chosen (b "order") (b "ascending") vs) (b "ascending")) pat (noted n s s1)
      (e_glob E (a_val pat)) r.

Lemma among_chosen k d l vs : In d l -> (forall v st w, In (Attr k v st w) vs -> text_among l v) ->
  In (chosen k d vs) l.
Proof.
  intros D O. unfold chosen. destruct (keyword_value k vs) as [v|] eqn:K; [|exact D].
  apply keyword_in in K as [st [w I]]. destruct (O _ _ _ I) as [a [A L]]. rewrite A. exact L.
Qed.

Lemma eval_glob args n s r : is_call (b "glob") args n ->
  eval E n s r <->
  exists q, evals E (received args) (entered n s) q /\
    match q with
    | Ok (vs, s1) => glob_outcome n s vs s1 r \/
        (~ accepted rules_glob vs /\ exists e, r = Err e /\ arguments rules_glob n vs = Err e)
    | _ => fails q r
    end.
Proof.
  apply (eval_rules (b "glob") BGlob rules_glob
    (fun c x _ s => let* pattern := need as_atom (PInt 1) x in
  let* type := want as_atom (PStr (b "type")) x in
  let* sort := want as_atom (PStr (b "sort")) x in
  let* order := want as_atom (PStr (b "order")) x in
  let* type :=
    match option_map a_val type with
    | None => Ok AnyPath
    | Some t => if beq t (b "file") then Ok OnlyFiles
                else if beq t (b "directory") then Ok OnlyDirs
                else if beq t (b "any") then Ok AnyPath
                else Panic PUnreachable
    end in
  let* sort :=
    match option_map a_val sort with
    | None => Ok ByNone
    | Some k => if beq k (b "modified") then Ok ByModified
                else if beq k (b "created") then Ok ByCreated
                else if beq k (b "name") then Ok ByName
                else if beq k (b "type") then Ok ByType
                else if beq k (b "none") then Ok ByNone
                else Panic PUnreachable
    end in
  let ascending := beq (val_or (b "ascending") order) (b "ascending") in
  match e_glob E (a_val pattern) with
  | None => error EGlob (a_site pattern)
  | Some entries =>
      let* set := glob_collect E type sort entries in
      match set with
      | None => error EGlob (a_site pattern)
      | Some set =>
          let set := if ascending then set else rev set in
          Ok (set_first_ws []
                (map (fun f => Str (Atom (lossy (f_path f)) (a_site pattern) (b " "))) set), s)
      end
  end)).
  - reflexivity.
  - reflexivity.
  - exact wf_glob.
  - intros vs s1 r' [p [pat [P [F [O _]]]]]. apply accepted_glob. exists p.
    split; [exact P|]. split; [unfold literal; congruence|exact O].
  - intros vs x s1 r' A X. apply accepted_glob in A as [p [P [F O]]].
    destruct (atomic p) as [pat|] eqn:Ap; [|exfalso; apply F; exact Ap].
    assert (X1 : need as_atom (PInt 1) x = Ok pat).
    { apply (need_atom _ _ _ _ wf_glob X (PInt 1) (mandatory 1 lit) p); [rule|cbn; rewrite P; reflexivity|exact Ap|reflexivity]. }
    assert (X2 := want_atom _ _ _ _ wf_glob X (PStr (b "type"))
      (option_named (b "type") (TLiteral (one_of [b "file"; b "directory"; b "any"]))) ltac:(rule) eq_refl).
    assert (X3 := want_atom _ _ _ _ wf_glob X (PStr (b "sort"))
      (option_named (b "sort") (TLiteral (one_of [b "modified"; b "created"; b "name"; b "type"; b "none"]))) ltac:(rule) eq_refl).
    assert (X4 := want_atom _ _ _ _ wf_glob X (PStr (b "order"))
      (option_named (b "order") (TLiteral (one_of [b "ascending"; b "descending"]))) ltac:(rule) eq_refl).
    cbn [given] in X2, X3, X4. rewrite X1, X2, X3, X4. cbn [bind]. rewrite val_or_chosen.
    assert (T : forall v st w, In (Attr (b "type") v st w) vs -> text_among [b "file"; b "directory"; b "any"] v).
    { intros v st w I. destruct (O _ _ _ _ I) as [[_ H]|[[H _]|[H _]]]; [exact H|discriminate|discriminate]. }
    assert (S : forall v st w, In (Attr (b "sort") v st w) vs -> text_among [b "modified"; b "created"; b "name"; b "type"; b "none"] v).
    { intros v st w I. destruct (O _ _ _ _ I) as [[H _]|[[_ H]|[H _]]]; [discriminate|exact H|discriminate]. }
    assert (Q1 : match option_map a_val (match keyword_value (b "type") vs with Some v => atomic v | None => None end) with
      | None => Ok AnyPath
      | Some t => if beq t (b "file") then Ok OnlyFiles
                else if beq t (b "directory") then Ok OnlyDirs
                else if beq t (b "any") then Ok AnyPath
                else Panic PUnreachable
      end = Ok (type_named (chosen (b "type") (b "any") vs))).
    { pose proof (among_chosen (b "type") (b "any") [b "file"; b "directory"; b "any"] vs (or_intror (or_intror (or_introl eq_refl))) T) as C. unfold chosen in *.
      destruct (keyword_value (b "type") vs) as [v|]; [|reflexivity]. destruct (atomic v) as [a|]; [|reflexivity].
      cbn [option_map]. unfold type_named. destruct C as [C|[C|[C|[]]]]; rewrite <- C; reflexivity. }
    assert (Q2 : match option_map a_val (match keyword_value (b "sort") vs with Some v => atomic v | None => None end) with
      | None => Ok ByNone
      | Some k => if beq k (b "modified") then Ok ByModified
                else if beq k (b "created") then Ok ByCreated
                else if beq k (b "name") then Ok ByName
                else if beq k (b "type") then Ok ByType
                else if beq k (b "none") then Ok ByNone
                else Panic PUnreachable
      end = Ok (key_named (chosen (b "sort") (b "none") vs))).
    { pose proof (among_chosen (b "sort") (b "none") [b "modified"; b "created"; b "name"; b "type"; b "none"] vs
        (or_intror (or_intror (or_intror (or_intror (or_introl eq_refl))))) S) as C. unfold chosen in *.
      destruct (keyword_value (b "sort") vs) as [v|]; [|reflexivity]. destruct (atomic v) as [a|]; [|reflexivity].
      cbn [option_map]. unfold key_named. destruct C as [C|[C|[C|[C|[C|[]]]]]]; rewrite <- C; reflexivity. }
    rewrite Q1, Q2. cbn [bind].
    match goal with |- _ <-> r' = ?rhs /\ _ => set (R := rhs) end.
    assert (K : forall r, globbed (type_named (chosen (b "type") (b "any") vs)) (key_named (chosen (b "sort") (b "none") vs))
      (beq (chosen (b "order") (b "ascending") vs) (b "ascending")) pat (noted n s s1)
      (e_glob E (a_val pat)) r <-> r = R) by (intros r0; apply globbed_spec).
    split.
    + intros [p' [pat' [P' [F' [_ G]]]]]. assert (pat' = pat) by congruence. subst pat'.
      split; [apply K, G|]. destruct G; discriminate.
    + intros [H _]. exists p, pat. split; [exact P|]. split; [exact Ap|]. split; [exact O|]. apply K, H.
Qed.

(** ** Documents *)

Lemma quiet_refl s : quiet s s.
Proof. repeat split. Qed.
Lemma quiet_trans s1 s2 s3 : quiet s1 s2 -> quiet s2 s3 -> quiet s1 s3.
Proof. intros [A1 [A2 [A3 [A4 [A5 A6]]]]] [B1 [B2 [B3 [B4 [B5 B6]]]]]. repeat split; congruence. Qed.
Lemma quiet_touch c s : quiet s (touch c s).
Proof. unfold touch. destruct (_ =? _); repeat split. Qed.
Lemma quiet_defs d s : quiet s (set_defs d s).
Proof. repeat split. Qed.
Lemma touch_defs c s : x_defs (touch c s) = x_defs s.
Proof. unfold touch. destruct (_ =? _); reflexivity. Qed.

Lemma yaml_ok text sep st defs d : yaml_reads E text d ->
  exists defs', expand_yaml E text sep st defs = Ok (Ok [data_node st [] d], defs') /\ imports sep st d defs defs'.
Proof.
  intros [es [Y [C T]]]. unfold expand_yaml. rewrite Y.
  destruct (yaml_document sep st es d defs C T) as [k [defs' [-> [N I]]]]. cbn [bind]. rewrite N. eauto.
Qed.

Definition succeeded {A} (q : res A) : bool := match q with Ok _ => true | _ => false end.
Lemma events_prefix sep st es rest k defs : succeeded (y_events sep st (es ++ rest) k defs) = true ->
  succeeded (y_events sep st es k defs) = true.
Proof.
  revert k defs. induction es as [|e es IH]; intros k defs H; cbn [y_events app] in *; [reflexivity|].
  destruct (y_event sep st e k defs) as [[k1 d1]| | | |]; cbn [bind] in *; try discriminate. apply IH, H.
Qed.

Lemma yaml_broken text sep st defs : yaml_breaks E text ->
  exists defs', expand_yaml E text sep st defs = Ok (Err (EErr EYaml st), defs').
Proof.
  intros [es [rest [d [Y [C T]]]]]. unfold expand_yaml. rewrite Y, content_events.
  assert (P : succeeded (y_events sep st (content es ++ rest) sink_new defs) = true).
  { rewrite C. destruct (yaml_document sep st (events d) d defs (content_of_events d) T) as [k [defs' [-> _]]]. reflexivity. }
  apply events_prefix in P. destruct (y_events sep st (content es) sink_new defs) as [[k d1]| | | |]; try discriminate.
  cbn [bind]. eauto.
Qed.

(** A collection as a key of the outermost mapping. *)
Lemma yaml_key text sep st defs es ok l key rest :
  e_yaml E text = (es, ok) ->
  content es = YMapStart :: flat_map (fun '(k, x) => YScalar k :: events x) l ++ events key ++ rest ->
  texts_only (Table l) = true -> texts_only key = true -> (forall k v, key <> Leaf k v) ->
  expand_yaml E text sep st defs = Panic PUnwrap.
Proof.
  intros Y C T TK NL. unfold expand_yaml. rewrite Y, content_events, C.
  assert (R : Forall (fun x => reads_named sep st (snd x)) l).
  { cbn [texts_only] in T. rewrite forallb_forall in T. apply Forall_forall. intros [k x] I.
    apply all_named. exact (T _ I). }
  destruct (reads_table sep st l R (y_start Map sink_new) defs eq_refl eq_refl) as [ds [_ Q]].
  cbn [y_events y_event bind]. rewrite (events_app _ _ _ _ _ _ _ _ Q). clear Q R T.
  cbn [y_nodes y_parent y_prefix y_modes y_start sink_new y_defining y_mode length app].
  set (ns := items_of _ 0 l).
  destruct key as [k v|l2|l2]; [destruct (NL k v eq_refl)| |].
  - assert (R : Forall (fun x => reads_named sep st (snd x)) l2).
    { cbn [texts_only] in TK. rewrite forallb_forall in TK. apply Forall_forall. intros [k x] I.
      apply all_named. exact (TK _ I). }
    destruct (reads_table sep st l2 R (y_start Map (Sink None ns [[]] [] (Some Map) [])) (assign ds defs) eq_refl eq_refl) as [ds2 [_ Q]].
    rewrite table_events. cbn [app y_events y_event bind]. rewrite <- app_assoc.
    rewrite (events_app _ _ _ _ _ _ _ _ Q). reflexivity.
  - assert (R : Forall (reads_named sep st) l2).
    { cbn [texts_only] in TK. rewrite forallb_forall in TK. apply Forall_forall. intros x I. apply all_named, TK, I. }
    destruct (reads_array sep st l2 R (y_start Seq (Sink None ns [[]] [] (Some Map) [])) (assign ds defs) eq_refl eq_refl) as [ds2 [_ Q]].
    cbn [events app y_events y_event bind]. rewrite <- app_assoc.
    rewrite (events_app _ _ _ _ _ _ _ _ Q). reflexivity.
Qed.


Theorem yaml_import name args n s vs s1 text sep d :
  name = b "yaml" \/ name = b "json" -> is_call name args n ->
  evals E (received args) (entered n s) (Ok (vs, s1)) -> imported vs text sep -> yaml_reads E text d ->
  exists s', eval E n s (Ok ([data_node (node_site n) [] d], s')) /\
    imports sep (node_site n) d (x_defs s1) (x_defs s') /\ quiet s1 s'.
Proof.
  intros NM C V [p [a [P [L [O [-> ->]]]]]] Y.
  destruct (yaml_ok (a_val a) (chosen (b "separator") (b "/") vs) (node_site n) (x_defs s1) d Y) as [defs' [X I]].
  exists (touch (ref n s) (set_defs defs' (noted n s s1))). split; [|split].
  - apply (eval_yaml name args n s _ NM C). eexists. split; [exact V|]. left. exists p, a.
    rewrite X. cbn [bind]. split; [exact P|]. split; [exact L|]. split; [exact O|]. split; [reflexivity|discriminate].
  - rewrite touch_defs. exact I.
  - eapply quiet_trans; [apply quiet_touch|]. eapply quiet_trans; [apply quiet_defs|]. apply quiet_touch.
Qed.

Theorem yaml_error name args n s vs s1 text sep :
  name = b "yaml" \/ name = b "json" -> is_call name args n ->
  evals E (received args) (entered n s) (Ok (vs, s1)) -> imported vs text sep -> yaml_breaks E text ->
  eval E n s (Err (EErr EYaml (node_site n))).
Proof.
  intros NM C V [p [a [P [L [O [-> ->]]]]]] Y.
  destruct (yaml_broken (a_val a) (chosen (b "separator") (b "/") vs) (node_site n) (x_defs s1) Y) as [defs' X].
  apply (eval_yaml name args n s _ NM C). eexists. split; [exact V|]. left. exists p, a.
  rewrite X. cbn [bind]. split; [exact P|]. split; [exact L|]. split; [exact O|]. split; [reflexivity|discriminate].
Qed.

Theorem yaml_panic name args n s vs s1 text sep es ok l key rest :
  name = b "yaml" \/ name = b "json" -> is_call name args n ->
  evals E (received args) (entered n s) (Ok (vs, s1)) -> imported vs text sep ->
  e_yaml E text = (es, ok) ->
  content es = YMapStart :: flat_map (fun '(k, x) => YScalar k :: events x) l ++ events key ++ rest ->
  texts_only (Table l) = true -> texts_only key = true -> (forall k v, key <> Leaf k v) ->
  eval E n s (Panic PUnwrap).
Proof.
  intros NM C V [p [a [P [L [O [-> ->]]]]]] Y CE T TK NL.
  apply (eval_yaml name args n s _ NM C). eexists. split; [exact V|]. left. exists p, a.
  rewrite (yaml_key _ _ _ _ _ _ _ _ _ Y CE T TK NL). split; [exact P|]. split; [exact L|]. split; [exact O|]. split; [reflexivity|discriminate].
Qed.

Theorem toml_import args n s vs s1 text sep d :
  is_call (b "toml") args n ->
  evals E (received args) (entered n s) (Ok (vs, s1)) -> imported vs text sep -> toml_reads E text d ->
  exists s', eval E n s (Ok ([data_node (node_site n) [] d], s')) /\
    imports sep (node_site n) d (x_defs s1) (x_defs s') /\ quiet s1 s'.
Proof.
  intros C V [p [a [P [L [O [-> ->]]]]]] [t [Y ->]].
  destruct (toml_document (chosen (b "separator") (b "/") vs) (node_site n) t (x_defs s1)) as [defs' [X I]].
  exists (touch (ref n s) (set_defs defs' (noted n s s1))). split; [|split].
  - apply (eval_toml args n s _ C). eexists. split; [exact V|]. left. exists p, a.
    unfold expand_toml. rewrite Y, X. cbn [bind]. split; [exact P|]. split; [exact L|]. split; [exact O|]. split; [reflexivity|discriminate].
  - rewrite touch_defs. exact I.
  - eapply quiet_trans; [apply quiet_touch|]. eapply quiet_trans; [apply quiet_defs|]. apply quiet_touch.
Qed.

Theorem toml_error args n s vs s1 text sep :
  is_call (b "toml") args n ->
  evals E (received args) (entered n s) (Ok (vs, s1)) -> imported vs text sep -> e_toml E text = None ->
  eval E n s (Err (EErr EToml (node_site n))).
Proof.
  intros C V [p [a [P [L [O [-> ->]]]]]] Y.
  apply (eval_toml args n s _ C). eexists. split; [exact V|]. left. exists p, a.
  unfold expand_toml. rewrite Y. cbn [bind]. split; [exact P|]. split; [exact L|]. split; [exact O|]. split; [reflexivity|discriminate].
Qed.

(** ** %markdown *)

Definition markdown_outcome (n : node) (s : state) (vs : list node) (s1 : state) (r : out) : Prop :=
  exists p a, positionals vs = [p] /\ (p = Str a \/ p = Raw a) /\
    options vs (fun k v => (k = b "separator" /\ literal v) \/
      (k = b "only" /\ text_among [b "frontmatter"; b "content"] v)) /\
    let sep := chosen (b "separator") (b "/") vs in
    let only := chosen (b "only") (b "both") vs in
    let front := frontmatter E (ref n s) a sep (noted n s s1) in
    let html := match e_html E (a_val a) with
      | Some html => Ok [Raw (Atom html (node_site n) (leading_ws n))]
      | None => error EMarkdown (a_site a)
      end in
    r = (if beq only (b "frontmatter") then
           let* '(q, s2) := front in let* _ := q in Ok ([], touch (ref n s) s2)
         else if beq only (b "content") then let* ns := html in Ok (ns, noted n s (noted n s s1))
         else let* '(_, s2) := front in let* ns := html in Ok (ns, touch (ref n s) s2)) /\
    r <> OutOfFuel.

Lemma eval_markdown args n s r : is_call (b "markdown") args n ->
  eval E n s r <->
  exists q, evals E (received args) (entered n s) q /\
    match q with
    | Ok (vs, s1) => markdown_outcome n s vs s1 r \/
        (~ accepted rules_markdown vs /\ exists e, r = Err e /\ arguments rules_markdown n vs = Err e)
    | _ => fails q r
    end.
Proof.
  apply (eval_rules (b "markdown") BMarkdown rules_markdown
    (fun c x _ s => let* contents := need as_atom (PInt 1) x in
  let* only := want as_atom (PStr (b "only")) x in
  let* sep := want as_atom (PStr (b "separator")) x in
  let sep := val_or (b "/") sep in
  let html :=
    match e_html E (a_val contents) with
    | Some html => Ok [Raw (here c html)]
    | None => error EMarkdown (a_site contents)
    end in
  match option_map a_val only with
  | None =>
      let* '(_, s) := frontmatter E c contents sep s in
      let* ns := html in Ok (ns, touch c s)
  | Some o =>
      if beq o (b "frontmatter") then
        let* '(r, s) := frontmatter E c contents sep s in
        let* _ := r in Ok ([], touch c s)
      else if beq o (b "content") then let* ns := html in Ok (ns, touch c s)
      else Panic PUnreachable
  end)).
  - reflexivity.
  - reflexivity.
  - exact wf_markdown.
  - intros vs s1 r' [p [a [P [L [O _]]]]]. apply accepted_markdown. eauto 6.
  - intros vs x s1 r' A X. apply accepted_markdown in A as [p [a [P [L O]]]].
    assert (X1 : need as_atom (PInt 1) x = Ok a).
    { apply (need_atom _ _ _ _ wf_markdown X (PInt 1) (mandatory 1 (TString [])) p); [rule|cbn; rewrite P; reflexivity|destruct L as [->| ->]; reflexivity|reflexivity]. }
    assert (X2 := want_atom _ _ _ _ wf_markdown X (PStr (b "only"))
      (option_named (b "only") (TLiteral (one_of [b "frontmatter"; b "content"]))) ltac:(rule) eq_refl).
    assert (X3 := want_atom _ _ _ _ wf_markdown X (PStr (b "separator")) (option_named (b "separator") lit) ltac:(rule) eq_refl).
    cbn [given] in X2, X3. rewrite X1, X2, X3. cbn [bind]. rewrite val_or_chosen. cbv zeta.
    assert (T : forall v st w, In (Attr (b "only") v st w) vs -> text_among [b "frontmatter"; b "content"] v).
    { intros v st w I. destruct (O _ _ _ _ I) as [[H _]|[_ H]]; [discriminate|exact H]. }
    match goal with |- _ <-> r' = ?rhs /\ _ => set (R := rhs) end.
    assert (K : R = (if beq (chosen (b "only") (b "both") vs) (b "frontmatter") then
           let* '(q, s2) := frontmatter E (ref n s) a (chosen (b "separator") (b "/") vs) (noted n s s1) in
           let* _ := q in Ok ([], touch (ref n s) s2)
         else if beq (chosen (b "only") (b "both") vs) (b "content") then
           let* ns := match e_html E (a_val a) with
              | Some html => Ok [Raw (Atom html (node_site n) (leading_ws n))]
              | None => error EMarkdown (a_site a)
              end in Ok (ns, noted n s (noted n s s1))
         else let* '(_, s2) := frontmatter E (ref n s) a (chosen (b "separator") (b "/") vs) (noted n s s1) in
           let* ns := match e_html E (a_val a) with
              | Some html => Ok [Raw (Atom html (node_site n) (leading_ws n))]
              | None => error EMarkdown (a_site a)
              end in Ok (ns, touch (ref n s) s2))).
    { unfold R. unfold chosen at 2 3 5. destruct (keyword_value (b "only") vs) as [v|] eqn:KV; [|reflexivity].
      apply keyword_in in KV as [st [w I]]. destruct (T _ _ _ I) as [o [Ao In_]]. rewrite Ao. cbn [option_map].
      destruct In_ as [<-|[<-|[]]]; reflexivity. }
    split.
    + intros [p' [a' [P' [L' [_ [H N]]]]]]. assert (a' = a).
      { rewrite P in P'. inversion P'; subst. destruct L as [->| ->], L' as [L'|L']; congruence. }
      subst a'. cbv zeta in H. split; [exact (eq_trans H (eq_sym K))|exact N].
    + intros [H N]. exists p, a. split; [exact P|]. split; [exact L|]. split; [exact O|]. cbv zeta. split; [exact (eq_trans H K)|exact N].
Qed.


Lemma markdown_gives args n s vs s1 a sep only r :
  is_call (b "markdown") args n -> evals E (received args) (entered n s) (Ok (vs, s1)) -> marked vs a sep only ->
  (let front := frontmatter E (ref n s) a sep (noted n s s1) in
   let html := match e_html E (a_val a) with
      | Some html => Ok [Raw (Atom html (node_site n) (leading_ws n))]
      | None => error EMarkdown (a_site a)
      end in
    r = (if beq only (b "frontmatter") then
           let* '(q, s2) := front in let* _ := q in Ok ([], touch (ref n s) s2)
         else if beq only (b "content") then let* ns := html in Ok (ns, noted n s (noted n s s1))
         else let* '(_, s2) := front in let* ns := html in Ok (ns, touch (ref n s) s2))) ->
  r <> OutOfFuel -> eval E n s r.
Proof.
  intros C V [p [P [L [O [-> ->]]]]] H N. apply (eval_markdown args n s r C). eexists. split; [exact V|]. left.
  exists p, a. split; [exact P|]. split; [exact L|]. split; [exact O|]. split; [exact H|exact N].
Qed.

Lemma front_reads c a sep s d : front_data E (a_val a) d ->
  exists defs', frontmatter E c a sep s = Ok (Ok tt, set_defs defs' s) /\ imports sep (call_site c) d (x_defs s) defs'.
Proof.
  intros [[y [F Y]]|[y [F [t [Y ->]]]]]; unfold frontmatter; rewrite F.
  - destruct (yaml_ok y sep (call_site c) (x_defs s) d Y) as [defs' [-> I]]. cbn [bind rmap]. eauto.
  - destruct (toml_document sep (call_site c) t (x_defs s)) as [defs' [X I]].
    unfold expand_toml. rewrite Y, X. cbn [rmap bind]. eauto.
Qed.
Lemma front_breaks c a sep s : front_broken E (a_val a) ->
  exists k defs', (k = EYaml \/ k = EToml) /\ frontmatter E c a sep s = Ok (Err (EErr k (call_site c)), set_defs defs' s).
Proof.
  intros [[y [F Y]]|[y [F Y]]]; unfold frontmatter; rewrite F.
  - destruct (yaml_broken y sep (call_site c) (x_defs s) Y) as [defs' ->]. cbn [bind rmap]. eauto.
  - unfold expand_toml. rewrite Y. cbn [rmap bind]. eauto.
Qed.

Lemma quiet_twice n s s1 defs : quiet s1 (touch (ref n s) (set_defs defs (noted n s s1))).
Proof. eapply quiet_trans; [apply quiet_touch|]. eapply quiet_trans; [apply quiet_defs|]. apply quiet_touch. Qed.

Theorem markdown_both args n s vs s1 a sep d html :
  is_call (b "markdown") args n -> evals E (received args) (entered n s) (Ok (vs, s1)) ->
  marked vs a sep (b "both") -> front_data E (a_val a) d -> e_html E (a_val a) = Some html ->
  exists s', eval E n s (Ok ([Raw (Atom html (node_site n) (leading_ws n))], s')) /\
    imports sep (node_site n) d (x_defs s1) (x_defs s') /\ quiet s1 s'.
Proof.
  intros C V M F H. destruct (front_reads (ref n s) a sep (noted n s s1) d F) as [defs' [X I]].
  exists (touch (ref n s) (set_defs defs' (noted n s s1))). split; [|split].
  - refine (markdown_gives _ _ _ _ _ _ _ _ _ C V M _ _); [|discriminate]. cbv zeta. rewrite X, H. reflexivity.
  - rewrite touch_defs. rewrite noted_defs in I. exact I.
  - apply quiet_twice.
Qed.

Theorem markdown_front args n s vs s1 a sep d :
  is_call (b "markdown") args n -> evals E (received args) (entered n s) (Ok (vs, s1)) ->
  marked vs a sep (b "frontmatter") -> front_data E (a_val a) d ->
  exists s', eval E n s (Ok ([], s')) /\
    imports sep (node_site n) d (x_defs s1) (x_defs s') /\ quiet s1 s'.
Proof.
  intros C V M F. destruct (front_reads (ref n s) a sep (noted n s s1) d F) as [defs' [X I]].
  exists (touch (ref n s) (set_defs defs' (noted n s s1))). split; [|split].
  - refine (markdown_gives _ _ _ _ _ _ _ _ _ C V M _ _); [|discriminate]. cbv zeta. rewrite X. reflexivity.
  - rewrite touch_defs. rewrite noted_defs in I. exact I.
  - apply quiet_twice.
Qed.

Theorem markdown_content args n s vs s1 a sep html :
  is_call (b "markdown") args n -> evals E (received args) (entered n s) (Ok (vs, s1)) ->
  marked vs a sep (b "content") -> e_html E (a_val a) = Some html ->
  exists s', eval E n s (Ok ([Raw (Atom html (node_site n) (leading_ws n))], s')) /\
    x_defs s' = x_defs s1 /\ quiet s1 s'.
Proof.
  intros C V M H. exists (noted n s (noted n s s1)). split; [|split].
  - refine (markdown_gives _ _ _ _ _ _ _ _ _ C V M _ _); [|discriminate]. cbv zeta. rewrite H. reflexivity.
  - rewrite !noted_defs. reflexivity.
  - eapply quiet_trans; apply quiet_touch.
Qed.

Theorem markdown_plain args n s vs s1 a sep html :
  is_call (b "markdown") args n -> evals E (received args) (entered n s) (Ok (vs, s1)) ->
  marked vs a sep (b "both") -> front_absent E (a_val a) -> e_html E (a_val a) = Some html ->
  exists s', eval E n s (Ok ([Raw (Atom html (node_site n) (leading_ws n))], s')) /\
    x_defs s' = x_defs s1 /\ quiet s1 s'.
Proof.
  intros C V M F H. exists (touch (ref n s) (noted n s s1)). split; [|split].
  - refine (markdown_gives _ _ _ _ _ _ _ _ _ C V M _ _); [|discriminate]. cbv zeta. unfold frontmatter. rewrite H.
    destruct F as [-> | ->]; reflexivity.
  - rewrite touch_defs, noted_defs. reflexivity.
  - eapply quiet_trans; apply quiet_touch.
Qed.

Theorem markdown_ignored args n s vs s1 a sep html :
  is_call (b "markdown") args n -> evals E (received args) (entered n s) (Ok (vs, s1)) ->
  marked vs a sep (b "both") -> front_broken E (a_val a) -> e_html E (a_val a) = Some html ->
  exists s', eval E n s (Ok ([Raw (Atom html (node_site n) (leading_ws n))], s')) /\ quiet s1 s'.
Proof.
  intros C V M F H. destruct (front_breaks (ref n s) a sep (noted n s s1) F) as [k [defs' [_ X]]].
  exists (touch (ref n s) (set_defs defs' (noted n s s1))). split; [|apply quiet_twice].
  refine (markdown_gives _ _ _ _ _ _ _ _ _ C V M _ _); [|discriminate]. cbv zeta. rewrite X, H. reflexivity.
Qed.

Theorem markdown_demanded args n s vs s1 a sep :
  is_call (b "markdown") args n -> evals E (received args) (entered n s) (Ok (vs, s1)) ->
  marked vs a sep (b "frontmatter") ->
  (front_absent E (a_val a) -> eval E n s (Err (EErr EMarkdown (a_site a)))) /\
  (front_broken E (a_val a) -> exists k, (k = EYaml \/ k = EToml) /\ eval E n s (Err (EErr k (node_site n)))).
Proof.
  intros C V M. split; intros F.
  - refine (markdown_gives _ _ _ _ _ _ _ _ _ C V M _ _); [|discriminate]. cbv zeta. unfold frontmatter. destruct F as [-> | ->]; reflexivity.
  - destruct (front_breaks (ref n s) a sep (noted n s s1) F) as [k [defs' [K X]]]. exists k. split; [exact K|].
    refine (markdown_gives _ _ _ _ _ _ _ _ _ C V M _ _); [|discriminate]. cbv zeta. rewrite X. reflexivity.
Qed.

Theorem markdown_unreadable args n s vs s1 a sep only :
  is_call (b "markdown") args n -> evals E (received args) (entered n s) (Ok (vs, s1)) ->
  marked vs a sep only -> (only = b "content" \/ only = b "both" /\ front_absent E (a_val a)) ->
  e_html E (a_val a) = None -> eval E n s (Err (EErr EMarkdown (a_site a))).
Proof.
  intros C V M D H. refine (markdown_gives _ _ _ _ _ _ _ _ _ C V M _ _); [|discriminate]. cbv zeta. rewrite H.
  destruct D as [->|[-> F]]; [reflexivity|]. unfold frontmatter. destruct F as [-> | ->]; reflexivity.
Qed.

(** ** Summaries *)

Lemma date_answer args n s vs s1 fmt time r :
  is_call (b "date") args n -> evals E (received args) (entered n s) (Ok (vs, s1)) -> dating vs fmt time ->
  (eval E n s r <-> exists z, zone E (zone_given vs) z /\
    match z with
    | Ok off => exists q, dated E fmt off (zone_site n vs) time q /\
        answers (fun text => Str (Atom text (node_site n) (leading_ws n))) (noted n s (noted n s s1)) q r
    | _ => fails z r
    end).
Proof.
  intros C V [f [a [P [L [A [<- O]]]]]]. rewrite (eval_date args n s r C). split.
  - intros [q [Q H]]. assert (q = Ok (vs, s1)) as -> by (eapply evals_fun; eauto).
    destruct H as [H|[N _]].
    + destruct H as [f' [fmt' [time' [P' [L' [A' [O' H]]]]]]]. rewrite P in P'. inversion P' as [[X Y]]. subst f'.
      assert (fmt' = a) as -> by congruence. assert (time' = time) as ->; [|exact H].
      clear - Y. revert time' Y. induction time as [|x time IH]; intros [|y time'] Y; try discriminate; [reflexivity|].
      inversion Y; subst. f_equal. auto.
    + exfalso. apply N, accepted_date. exists f, time. split; [exact P|]. split; [exact L|].
      split; [unfold literal; congruence|exact O].
  - intros H. eexists. split; [exact V|]. left. exists f, a, time. auto 6.
Qed.

Lemma timestamp_answer args n s vs s1 fmt date r :
  is_call (b "timestamp") args n -> evals E (received args) (entered n s) (Ok (vs, s1)) -> timing vs fmt date ->
  (eval E n s r <-> exists z, zone E (zone_given vs) z /\
    match z with
    | Ok off => exists q, timed E fmt date off (node_site n) (zone_site n vs) q /\
        answers (fun t => Num (Atom (show_Z t) (node_site n) (leading_ws n))) (noted n s (noted n s s1)) q r
    | _ => fails z r
    end).
Proof.
  intros C V [f [d [a [a' [P [A [B [<- [<- O]]]]]]]]]. rewrite (eval_timestamp args n s r C). split.
  - intros [q [Q H]]. assert (q = Ok (vs, s1)) as -> by (eapply evals_fun; eauto).
    destruct H as [H|[N _]].
    + destruct H as [f' [d' [fmt' [date' [P' [A' [B' [O' H]]]]]]]]. rewrite P in P'. inversion P' as [[X Y]]. subst f' d'.
      assert (fmt' = a) as -> by congruence. assert (date' = a') as -> by congruence. exact H.
    + exfalso. apply N, accepted_timestamp. exists f, d. split; [exact P|].
      split; [unfold literal; congruence|]. split; [unfold literal; congruence|exact O].
  - intros H. eexists. split; [exact V|]. left. exists f, d, a, a'. auto 7.
Qed.

Lemma glob_answer args n s vs s1 pat t k up r :
  is_call (b "glob") args n -> evals E (received args) (entered n s) (Ok (vs, s1)) -> listing_args vs pat t k up ->
  globbed t k up pat (noted n s s1) (e_glob E (a_val pat)) r -> eval E n s r.
Proof.
  intros C V [p [P [A [O [-> [-> ->]]]]]] H. apply (eval_glob args n s r C). eexists. split; [exact V|]. left.
  exists p, pat. auto.
Qed.

Theorem listed_sorted args n s vs s1 pat t k up l all :
  is_call (b "glob") args n -> evals E (received args) (entered n s) (Ok (vs, s1)) -> listing_args vs pat t k up ->
  k <> ByNone -> e_glob E (a_val pat) = Some l -> all_found l = Some all -> Forall (comparable k) (listing t all) ->
  exists out,
    eval E n s (Ok (path_nodes (a_site pat) (if up then out else rev out), noted n s s1)) /\
    StronglySorted (before k) out /\
    (forall x, In x out -> In x (listing t all)) /\
    (forall x, In x (listing t all) -> exists y, In y out /\ same_path (f_path x) (f_path y) /\
       ~ before k x y /\ ~ before k y x) /\
    (ForallOrdPairs (fun x y => ~ same_path (f_path x) (f_path y)) (listing t all) ->
     Permutation out (listing t all)).
Proof.
  intros C V A N G F X. destruct (glob_sorted E t k l all N F X) as [out [Q [S [I J]]]]. exists out.
  split; [|split; [exact S|split; [exact I|split; [exact J|]]]].
  - apply (glob_answer args n s vs s1 pat t k up _ C V A). rewrite G. constructor. exact Q.
  - intros U. exact (glob_permutes E t k l all out N F X U Q).
Qed.

Theorem listed_unsorted args n s vs s1 pat t up l all :
  is_call (b "glob") args n -> evals E (received args) (entered n s) (Ok (vs, s1)) -> listing_args vs pat t ByNone up ->
  e_glob E (a_val pat) = Some l -> all_found l = Some all ->
  eval E n s (Ok (path_nodes (a_site pat) (if up then rev (listing t all) else listing t all), noted n s s1)).
Proof.
  intros C V A G F. apply (glob_answer args n s vs s1 pat t ByNone up _ C V A). rewrite G.
  replace (if up then rev (listing t all) else listing t all)
    with (if up then rev (listing t all) else rev (rev (listing t all))) by (rewrite rev_involutive; reflexivity).
  constructor. apply glob_unsorted, F.
Qed.

Theorem listed_wrong args n s vs s1 pat t k up :
  is_call (b "glob") args n -> evals E (received args) (entered n s) (Ok (vs, s1)) -> listing_args vs pat t k up ->
  (e_glob E (a_val pat) = None -> eval E n s (Err (EErr EGlob (a_site pat)))) /\
  (forall good fs rest, all_found good = Some fs -> e_glob E (a_val pat) = Some (good ++ None :: rest) ->
     eval E n s (Err (EErr EGlob (a_site pat)))) /\
  (forall good fs p rest, all_found good = Some fs -> e_glob E (a_val pat) = Some (good ++ Some (p, None) :: rest) ->
     eval E n s (Panic PUnwrap)).
Proof.
  intros C V A. split; [|split].
  - intros G. apply (glob_answer args n s vs s1 pat t k up _ C V A). rewrite G. constructor.
  - intros good fs rest F G. apply (glob_answer args n s vs s1 pat t k up _ C V A). rewrite G. econstructor; eauto.
  - intros good fs p rest F G. apply (glob_answer args n s vs s1 pat t k up _ C V A). rewrite G. econstructor; eauto.
Qed.
End WithEnv.
