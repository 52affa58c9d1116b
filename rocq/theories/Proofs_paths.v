(** * Components, file names and order of paths *)

From Coq Require Import String List Ascii Bool Arith NArith Lia.
From Verif Require Import Text Numbers Paths Spec_scope Spec_text
  Proofs_text Proofs_scope.
Import ListNotations.

Local Notation slash := "/"%char.

Lemma segments_snoc cur p q : segments cur (p ++ slash :: q) = segments cur p ++ segments [] q.
Proof.
  revert cur. induction p as [|c p IH]; intros cur; cbn [app segments].
  - rewrite ch_refl. reflexivity.
  - destruct (ch c slash); rewrite IH; reflexivity.
Qed.

Lemma segments_plain cur s : no_slash s -> segments cur s = [cur ++ s].
Proof.
  revert cur. induction s as [|c s IH]; intros cur N; cbn [segments]; [rewrite app_nil_r; reflexivity|].
  assert (Q : ch c slash = false) by (apply ch_neq; intros ->; apply N; left; reflexivity).
  rewrite Q, IH by (intros I; apply N; right; exact I). rewrite <- app_assoc. reflexivity.
Qed.

Lemma segments_some cur p : exists s l, segments cur p = s :: l.
Proof.
  revert cur. induction p as [|c p IH]; intros cur; cbn [segments]; [eauto|].
  destruct (ch c slash); eauto.
Qed.

Definition parts (p : bytes) : list component := flat_map (component_of false) (segments [] p).

Lemma components_snoc p q : p <> [] -> components (p ++ slash :: q) = components p ++ parts q.
Proof.
  intros N. unfold components. rewrite segments_snoc.
  replace (is_absolute (p ++ slash :: q)) with (is_absolute p) by (destruct p; [congruence|reflexivity]).
  destruct (segments_some [] p) as [s [l Q]]. rewrite Q. cbn [app]. rewrite flat_map_app, app_assoc. reflexivity.
Qed.

Lemma components_root q : components (slash :: q) = RootDir :: parts q.
Proof. unfold components. cbn [segments]. rewrite ch_refl. reflexivity. Qed.

Lemma parts_plain s : no_slash s -> parts s = component_of false s.
Proof. intros N. unfold parts. rewrite (segments_plain [] s N). cbn. apply app_nil_r. Qed.

Lemma components_plain s : no_slash s -> components s = component_of true s.
Proof.
  intros N. unfold components. rewrite (segments_plain [] s N). cbn [app flat_map]. rewrite app_nil_r.
  destruct s as [|c s]; [reflexivity|]. cbn [is_absolute].
  assert (Q : ch c slash = false) by (apply ch_neq; intros ->; apply N; left; reflexivity).
  rewrite Q. reflexivity.
Qed.

Lemma not_special_component fst s : ~ In s [[]; b "."; b ".."] -> component_of fst s = [Normal s].
Proof.
  intros N. unfold component_of.
  destruct (beq s []) eqn:Q1; [apply beq_eq in Q1; subst; exfalso; apply N; cbn; auto|].
  destruct (beq s (b ".")) eqn:Q2; [apply beq_eq in Q2; subst; exfalso; apply N; cbn; auto|].
  destruct (beq s (b "..")) eqn:Q3; [apply beq_eq in Q3; subst; exfalso; apply N; cbn; auto|].
  reflexivity.
Qed.

Lemma special_dec s : {In s [[]; b "."; b ".."]} + {~ In s [[]; b "."; b ".."]}.
Proof. apply in_dec, list_eq_dec, ascii_dec. Qed.

Lemma no_slash_dots : no_slash [] /\ no_slash (b ".") /\ no_slash (b "..").
Proof. repeat split; intros I; cbn in I; intuition discriminate. Qed.

Lemma begins_iff s l : begins s l <-> no_slash s /\ component_of true s = l.
Proof.
  split.
  - destruct 1; (split; [first [assumption|apply no_slash_dots]|]);
      [reflexivity|reflexivity|reflexivity|apply not_special_component; assumption].
  - intros [N <-]. destruct (special_dec s) as [I|I].
    + destruct I as [<-|[<-|[<-|[]]]]; constructor.
    + rewrite not_special_component by exact I. constructor; assumption.
Qed.

Lemma continues_iff s l : continues s l <-> no_slash s /\ component_of false s = l.
Proof.
  split.
  - destruct 1; (split; [first [assumption|apply no_slash_dots]|]);
      [reflexivity|reflexivity|reflexivity|apply not_special_component; assumption].
  - intros [N <-]. destruct (special_dec s) as [I|I].
    + destruct I as [<-|[<-|[<-|[]]]]; constructor.
    + rewrite not_special_component by exact I. constructor; assumption.
Qed.

Lemma last_slash p : no_slash p \/ exists q s, p = q ++ slash :: s /\ no_slash s.
Proof.
  induction p as [|c p IH]; [left; intros []|].
  destruct IH as [N|[q [s [-> N]]]].
  - destruct (ascii_dec c slash) as [->|D].
    + right. exists [], p. auto.
    + left. intros [Z|Z]; [congruence|exact (N Z)].
  - right. exists (c :: q), s. auto.
Qed.

Lemma components_consist p : consists p (components p).
Proof.
  remember (length p) as n eqn:L. revert p L. induction n as [n IH] using lt_wf_ind. intros p L.
  destruct (last_slash p) as [N|[q [s [-> N]]]].
  - apply consists_relative, begins_iff. split; [exact N|]. symmetry. apply components_plain, N.
  - destruct q as [|c q].
    + cbn [app]. rewrite components_root, parts_plain by exact N.
      apply (consists_absolute s), continues_iff. auto.
    + rewrite components_snoc, parts_plain by (discriminate || exact N).
      apply (consists_more (c :: q) s); [discriminate| |apply continues_iff; auto].
      apply (IH (length (c :: q))); [|reflexivity]. subst n. rewrite app_length. cbn. lia.
Qed.

Lemma consists_components p l : consists p l -> components p = l.
Proof.
  induction 1 as [s l B|s l C|p s l l' N C IH B].
  - apply begins_iff in B as [B <-]. apply components_plain, B.
  - apply continues_iff in C as [C <-]. cbn [b list_ascii_of_string app].
    rewrite components_root, parts_plain by exact C. reflexivity.
  - apply continues_iff in B as [B <-]. cbn [b list_ascii_of_string app].
    rewrite components_snoc, parts_plain by assumption. rewrite IH. reflexivity.
Qed.

Lemma consists_iff p l : consists p l <-> components p = l.
Proof. split; [apply consists_components|intros <-; apply components_consist]. Qed.

(** ** Joining *)

Lemma first_segment p c r : p = c :: r -> c <> slash -> exists s l, segments [] p = s :: l /\ s <> [].
Proof.
  intros -> N. cbn [segments]. apply ch_neq in N. rewrite N. cbn [app].
  assert (G : forall r cur, cur <> [] -> exists s l, segments cur r = s :: l /\ s <> []).
  { clear. induction r as [|c r IH]; intros cur N; cbn [segments]; [eauto|].
    destruct (ch c slash); [eauto|]. apply IH. destruct cur; discriminate. }
  apply G. discriminate.
Qed.

Lemma parts_after p : is_absolute p = false -> parts p = after_slash (components p).
Proof.
  intros A. destruct p as [|c r]; [reflexivity|]. cbn [is_absolute] in A. pose proof (proj1 (ch_neq _ _) A) as N.
  destruct (first_segment _ c r eq_refl N) as [s [l [Q Z]]].
  unfold parts, components. cbn [is_absolute]. rewrite A, Q. cbn [flat_map].
  destruct (special_dec s) as [I|I].
  - destruct I as [<-|[<-|[<-|[]]]]; [congruence|reflexivity|reflexivity].
  - rewrite !not_special_component by exact I. reflexivity.
Qed.

Lemma last_byte_snoc p c : last_byte (p ++ [c]) = Some c.
Proof. unfold last_byte. rewrite rev_unit. reflexivity. Qed.

Lemma components_trailing p : p <> [] -> components (p ++ [slash]) = components p.
Proof. intros N. rewrite components_snoc by exact N. apply app_nil_r. Qed.

Lemma join_components d p : is_absolute p = false -> d <> [] ->
  components (path_join d p) = components d ++ after_slash (components p).
Proof.
  intros A N. unfold path_join. rewrite A.
  destruct d as [|c d _] using rev_ind; [congruence|]. rewrite last_byte_snoc.
  rewrite <- parts_after by exact A. destruct (ch c slash) eqn:Q.
  - apply ch_eq in Q. subst c. rewrite <- app_assoc. cbn [app].
    destruct d as [|a d]; [cbn [app]; rewrite !components_root; reflexivity|].
    rewrite components_snoc, components_trailing by discriminate. reflexivity.
  - cbn [b list_ascii_of_string app]. apply components_snoc, N.
Qed.

(** ** File names *)

Lemma trim_components r : components (rev (trim_rev r)) = components (rev r).
Proof.
  induction r as [|c r IH]; [reflexivity|]. cbn [trim_rev].
  destruct (ch c slash) eqn:Q.
  - apply ch_eq in Q. subst c. destruct r as [|d r]; [reflexivity|].
    rewrite IH. change (rev (slash :: d :: r)) with (rev (d :: r) ++ [slash]). symmetry. apply components_trailing.
    cbn. intros Z. apply app_eq_nil in Z as [_ Z]. discriminate.
  - destruct (ch c ".") eqn:D; [|reflexivity]. apply ch_eq in D. subst c.
    destruct r as [|d r]; [reflexivity|]. destruct (ch d slash) eqn:S; [|reflexivity].
    apply ch_eq in S. subst d. destruct r as [|e r]; [reflexivity|].
    rewrite IH. change (rev ("."%char :: slash :: e :: r)) with ((rev (e :: r) ++ [slash]) ++ b ".").
    change (rev (slash :: e :: r)) with (rev (e :: r) ++ [slash]). rewrite <- app_assoc. cbn [app].
    rewrite !components_snoc by (cbn; intros Z; apply app_eq_nil in Z as [_ Z]; discriminate). reflexivity.
Qed.

Lemma trim_slash r r' : trim_rev r = slash :: r' -> r' = [].
Proof.
  induction r as [|c r IH]; [discriminate|]. cbn [trim_rev].
  destruct (ch c slash) eqn:Q.
  - destruct r as [|d r]; [intros H; inversion H; reflexivity|exact IH].
  - apply ch_neq in Q. destruct (ch c ".") eqn:D; [|intros H; inversion H; congruence].
    destruct r as [|d r]; [intros H; inversion H; congruence|].
    destruct (ch d slash) eqn:S; [|intros H; inversion H; congruence].
    destruct r as [|e r]; [intros H; inversion H; reflexivity|exact IH].
Qed.

Lemma trim_dot r r' : trim_rev r = "."%char :: slash :: r' -> False.
Proof.
  induction r as [|c r IH]; [discriminate|]. cbn [trim_rev].
  destruct (ch c slash) eqn:Q.
  - apply ch_eq in Q. subst c. destruct r as [|d r]; [discriminate|exact IH].
  - destruct (ch c ".") eqn:D; [|intros H; inversion H; subst; discriminate].
    destruct r as [|d r]; [intros H; inversion H|].
    destruct (ch d slash) eqn:S; [|intros H; inversion H; subst; discriminate].
    destruct r as [|e r]; [intros H; inversion H; subst; discriminate|exact IH].
Qed.

Lemma take_name_shape r n d : take_name r = (n, d) -> r = n ++ d /\ no_slash n /\ (d = [] \/ exists d', d = slash :: d').
Proof.
  revert n d. induction r as [|c r IH]; intros n d H; cbn [take_name] in H.
  - inversion H. repeat split; [intros []|auto].
  - destruct (ch c slash) eqn:Q.
    + apply ch_eq in Q. subst c. inversion H; subst. repeat split; [intros []|eauto].
    + apply ch_neq in Q. destruct (take_name r) as [n1 d1] eqn:T. inversion H; subst.
      destruct (IH _ _ eq_refl) as [A [B C]]. subst r. repeat split; [|exact C].
      intros [Z|Z]; [congruence|exact (B Z)].
Qed.

Lemma no_slash_rev n : no_slash n -> no_slash (rev n).
Proof. intros N I. apply N, in_rev, I. Qed.

Lemma file_name_cases p :
  (exists f d, file_name p = Some (f, d) /\ no_slash f /\ ~ In f [[]; b "."; b ".."] /\
     components p = components d ++ [Normal f]) \/
  (file_name p = None /\ forall l f, components p <> l ++ [Normal f]).
Proof.
  unfold file_name. destruct (take_name (trim_rev (rev p))) as [n d] eqn:T.
  destruct (take_name_shape _ _ _ T) as [S [N D]]. apply no_slash_rev in N.
  assert (P : components p = components (rev d ++ rev n)).
  { rewrite <- (rev_involutive p) at 1. rewrite <- trim_components, S, rev_app_distr. reflexivity. }
  assert (K : components (rev d ++ rev n) = components (rev d) ++ component_of (match d with [] => true | _ => false end) (rev n)).
  { destruct D as [->|[d' ->]].
    - cbn [rev app]. apply components_plain, N.
    - cbn [rev]. rewrite <- app_assoc. cbn [app]. destruct (rev d') as [|e r] eqn:R.
      + cbn [app]. rewrite !components_root, (parts_plain (rev n)) by exact N. reflexivity.
      + rewrite !components_snoc, (parts_plain (rev n)) by (discriminate || exact N). cbn [parts]. rewrite app_nil_r. reflexivity. }
  rewrite P, K.
  destruct (special_dec (rev n)) as [I|I].
  - right. split.
    { destruct I as [I|[I|[I|[]]]]; rewrite <- I; reflexivity. }
    intros l f. destruct I as [I|[I|[I|[]]]].
    + symmetry in I. assert (n = []) by (rewrite <- (rev_involutive n), I; reflexivity). subst n. cbn [app] in S.
      destruct D as [->|[d' ->]].
      * cbn. intros Z. symmetry in Z. apply app_eq_nil in Z as [_ Z]. discriminate.
      * apply trim_slash in S. subst d'. cbn. intros Z. destruct l as [|x [|y l]]; discriminate.
    + assert (n = b ".") by (rewrite <- (rev_involutive n), <- I; reflexivity). subst n.
      destruct D as [->|[d' ->]].
      * cbn. intros Z. destruct l as [|x [|y l]]; discriminate.
      * exfalso. apply (trim_dot _ _ S).
    + rewrite <- I. intros Z. apply app_inj_tail in Z as [_ Z]. discriminate.
  - left. exists (rev n), (rev (trim_rev d)).
    assert (G : beq (rev n) [] || beq (rev n) (b ".") || beq (rev n) (b "..") = false).
    { apply orb_false_iff; split; [apply orb_false_iff; split|]; apply beq_neq; intros Z; apply I; rewrite Z; cbn; auto. }
    rewrite G. repeat split; [exact N|exact I|].
    rewrite trim_components, not_special_component by exact I. reflexivity.
Qed.

Lemma file_name_some p f d : file_name p = Some (f, d) ->
  no_slash f /\ ~ In f [[]; b "."; b ".."] /\ components p = components d ++ [Normal f].
Proof.
  intros H. destruct (file_name_cases p) as [[f' [d' [Q R]]]|[Q _]]; [|congruence].
  rewrite H in Q. inversion Q; subst. exact R.
Qed.

Lemma file_name_exactly p f : (exists d, file_name p = Some (f, d)) <-> exists l, consists p (l ++ [Normal f]).
Proof.
  split.
  - intros [d H]. apply file_name_some in H as [_ [_ H]]. exists (components d). apply consists_iff, H.
  - intros [l H]. apply consists_iff in H.
    destruct (file_name_cases p) as [[f' [d [Q [_ [_ R]]]]]|[_ Q]]; [|exfalso; exact (Q _ _ H)].
    rewrite H in R. apply app_inj_tail in R as [_ R]. inversion R; subst. eauto.
Qed.

Lemma file_name_parent p f d l : file_name p = Some (f, d) -> consists p (l ++ [Normal f]) -> consists d l.
Proof.
  intros H C. apply file_name_some in H as [_ [_ H]]. apply consists_iff in C. rewrite H in C.
  apply app_inj_tail in C as [C _]. apply consists_iff, C.
Qed.

(** ** [.sex] *)

Lemma sex_plain f : no_slash f -> no_slash (f ++ b ".sex") /\ ~ In (f ++ b ".sex") [[]; b "."; b ".."].
Proof.
  intros N. split.
  - intros I. apply in_app_or in I as [I|I]; [exact (N I)|]. cbn in I. intuition discriminate.
  - intros I. assert (L : length (f ++ b ".sex") >= 4) by (rewrite app_length; cbn; lia).
    destruct I as [I|[I|[I|[]]]]; rewrite <- I in L; cbn in L; lia.
Qed.

Lemma with_sex_some p q : with_sex p = Some q ->
  exists l f, consists p (l ++ [Normal f]) /\ consists q (l ++ [Normal (f ++ b ".sex")]).
Proof.
  unfold with_sex. destruct (file_name p) as [[f d]|] eqn:H; [|discriminate]. intros Q. assert (Z : q = path_join d (f ++ b ".sex")) by congruence. subst q. clear Q.
  apply file_name_some in H as [N [_ H]]. destruct (sex_plain f N) as [N1 N2].
  exists (components d), f. split; [apply consists_iff, H|]. apply consists_iff.
  assert (A : is_absolute (f ++ b ".sex") = false).
  { destruct f as [|c f]; [reflexivity|]. cbn. apply ch_neq. intros ->. apply N. left. reflexivity. }
  assert (C : components (f ++ b ".sex") = [Normal (f ++ b ".sex")]).
  { rewrite components_plain by exact N1. apply not_special_component, N2. }
  destruct d as [|c d].
  - unfold path_join. rewrite A. cbn [last_byte rev]. exact C.
  - rewrite join_components by (exact A || discriminate). rewrite C. reflexivity.
Qed.

Lemma with_sex_none p : with_sex p = None <-> ~ exists l f, consists p (l ++ [Normal f]).
Proof.
  unfold with_sex. split.
  - destruct (file_name p) as [[f d]|] eqn:H; [discriminate|]. intros _ [l [f C]].
    assert (E : exists d, file_name p = Some (f, d)) by (apply file_name_exactly; eauto).
    destruct E as [d E]. congruence.
  - intros N. destruct (file_name p) as [[f d]|] eqn:H; [|reflexivity].
    exfalso. apply N. assert (E : exists d, file_name p = Some (f, d)) by eauto.
    apply file_name_exactly in E as [l E]. eauto.
Qed.

(** ** Extensions *)

Lemma last_dot_none s : last_dot s = None <-> ~ In "."%char s.
Proof.
  induction s as [|c s IH]; [split; [intros _ []|reflexivity]|]. cbn [last_dot].
  destruct (last_dot s) as [[x y]|].
  - split; [discriminate|]. intros N. exfalso. assert (Z : Some (x, y) = None); [|discriminate].
    apply IH. intros I. apply N. right. exact I.
  - destruct (ch c ".") eqn:Q.
    + split; [discriminate|]. intros N. apply ch_eq in Q. subst. exfalso. apply N. left. reflexivity.
    + split; [|reflexivity]. intros _ [I|I]; [apply ch_neq in Q; congruence|]. apply (proj1 IH); auto.
Qed.

Lemma last_dot_some s x y : last_dot s = Some (x, y) <-> s = x ++ b "." ++ y /\ ~ In "."%char y.
Proof.
  revert x y. induction s as [|c s IH]; intros x y; cbn [last_dot].
  - split; [discriminate|]. intros [Z _]. destruct x; discriminate.
  - destruct (last_dot s) as [[x' y']|] eqn:L.
    + split.
      * intros H. inversion H; subst. destruct (proj1 (IH x' y) eq_refl) as [A B]. subst. auto.
      * intros [A B]. destruct x as [|a x].
        -- exfalso. inversion A; subst. apply last_dot_none in B. congruence.
        -- inversion A; subst. assert (Q : Some (x', y') = Some (x, y)) by (apply IH; auto). inversion Q; subst. reflexivity.
    + destruct (ch c ".") eqn:Q.
      * apply ch_eq in Q. subst c. split.
        -- intros H. inversion H; subst. split; [reflexivity|]. apply last_dot_none, L.
        -- intros [A B]. destruct x as [|a x]; [inversion A; subst; reflexivity|].
           inversion A; subst. exfalso. apply last_dot_none in L. apply L. apply in_or_app. right. left. reflexivity.
      * split; [discriminate|]. intros [A B]. exfalso. destruct x as [|a x].
        -- inversion A; subst. discriminate.
        -- inversion A; subst. apply last_dot_none in L. apply L. apply in_or_app. right. left. reflexivity.
Qed.

Lemma extension_exactly p e : extension p = Some e <->
  exists l stem, consists p (l ++ [Normal (stem ++ b "." ++ e)]) /\ stem <> [] /\ ~ In "."%char e.
Proof.
  unfold extension. split.
  - destruct (file_name p) as [[f d]|] eqn:F; [|discriminate].
    destruct (last_dot f) as [[[|c x] y]|] eqn:L; try discriminate. intros H. inversion H; subst y.
    apply last_dot_some in L as [-> N]. assert (E : exists d, file_name p = Some ((c :: x) ++ b "." ++ e, d)) by eauto.
    apply file_name_exactly in E as [l E]. exists l, (c :: x). repeat split; [exact E|discriminate|exact N].
  - intros [l [stem [C [N D]]]]. assert (E : exists d, file_name p = Some (stem ++ b "." ++ e, d)) by (apply file_name_exactly; eauto).
    destruct E as [d E]. rewrite E. rewrite (proj2 (last_dot_some _ stem e)) by auto.
    destruct stem; [congruence|reflexivity].
Qed.

(** ** Order *)

Lemma bytes_lt_iff x y : bytes_cmp x y = Lt <->
  (exists c t, y = x ++ c :: t) \/
  (exists s c d t t', x = s ++ c :: t /\ y = s ++ d :: t' /\ (N_of_ascii c < N_of_ascii d)%N).
Proof.
  revert y. induction x as [|a x IH]; intros [|a' y]; cbn [bytes_cmp].
  - split; [discriminate|]. intros [[c [t Z]]|[s [c [d [t [t' [Z _]]]]]]]; [discriminate|destruct s; discriminate].
  - split; [|reflexivity]. intros _. left. exists a', y. reflexivity.
  - split; [discriminate|]. intros [[c [t Z]]|[s [c [d [t [t' [_ [Z _]]]]]]]]; [discriminate|destruct s; discriminate].
  - destruct (N.compare_spec (N_of_ascii a) (N_of_ascii a')) as [E|E|E].
    + assert (a = a') by (rewrite <- (ascii_N_embedding a), E; apply ascii_N_embedding). subst a'.
      rewrite IH. split.
      * intros [[c [t ->]]|[s [c [d [t [t' [-> [-> L]]]]]]]]; [left; exists c, t; reflexivity|right].
        exists (a :: s), c, d, t, t'. auto.
      * intros [[c [t Z]]|[s [c [d [t [t' [Z1 [Z2 L]]]]]]]].
        -- inversion Z; subst. left. eauto.
        -- destruct s as [|e s]; inversion Z1; inversion Z2; subst.
           ++ match goal with H : ?c = ?d |- _ => subst; lia | _ => exfalso; lia end.
           ++ right. exists s, c, d, t, t'. auto.
    + split; [|reflexivity]. intros _. right. exists [], a, a', x, y. auto.
    + split; [discriminate|]. intros [[c [t Z]]|[s [c [d [t [t' [Z1 [Z2 L]]]]]]]].
      * inversion Z; subst. lia.
      * destruct s as [|e s]; inversion Z1; inversion Z2; subst; lia.
Qed.

Lemma component_lt_iff x y : component_cmp x y = Lt <-> component_lt x y.
Proof.
  destruct x as [| | |s], y as [| | |t]; cbn [component_cmp component_rank];
    try (vm_compute; split; [discriminate|intros H; inversion H]);
    try (vm_compute; split; [intros _; constructor|reflexivity]).
  rewrite bytes_lt_iff. split.
  - intros [[c [r ->]]|[u [c [d [r [r' [-> [-> L]]]]]]]]; constructor. exact L.
  - intros H. inversion H; subst; [left; eauto|right]. repeat eexists; eassumption.
Qed.

Lemma earlier_cons c x y : earlier x y -> earlier (c :: x) (c :: y).
Proof.
  destruct 1 as [l d l'|l d e r r' L].
  - apply (earlier_shorter (c :: l)).
  - apply (earlier_at (c :: l)), L.
Qed.

Lemma component_lt_irrefl c : ~ component_lt c c.
Proof.
  intros H. apply component_lt_iff in H. assert (E : component_cmp c c = Eq) by (apply component_cmp_eq; reflexivity). congruence.
Qed.

Lemma earlier_iff x y : list_cmp component_cmp x y = Lt <-> earlier x y.
Proof.
  revert y. induction x as [|c x IH]; intros [|d y]; cbn [list_cmp].
  - split; [discriminate|]. intros H. inversion H; subst; destruct l; discriminate.
  - split; [|reflexivity]. intros _. apply (earlier_shorter []).
  - split; [discriminate|]. intros H. inversion H; subst; destruct l; discriminate.
  - destruct (component_cmp c d) eqn:Q.
    + apply component_cmp_eq in Q. subst d. rewrite IH. split; [apply earlier_cons|].
      intros H. remember (c :: x) as X eqn:Q1. remember (c :: y) as Y eqn:Q2.
      destruct H as [l e l'|l e e' r r' L].
      * subst l. inversion Q2; subst. constructor.
      * destruct l as [|a l]; inversion Q1; inversion Q2; subst.
        -- exfalso. apply (component_lt_irrefl _ L).
        -- constructor. exact L.
    + split; [|reflexivity]. intros _. apply component_lt_iff in Q. apply (earlier_at [] c d x y Q).
    + split; [discriminate|]. intros H. exfalso.
      remember (c :: x) as X eqn:Q1. remember (d :: y) as Y eqn:Q2.
      destruct H as [l e l'|l e e' r r' L].
      * subst l. inversion Q2; subst. assert (E : component_cmp d d = Eq) by (apply component_cmp_eq; reflexivity). congruence.
      * destruct l as [|a l]; inversion Q1; inversion Q2; subst.
        -- apply component_lt_iff in L. congruence.
        -- assert (E : component_cmp d d = Eq) by (apply component_cmp_eq; reflexivity). congruence.
Qed.

Lemma path_order p q l m : consists p l -> consists q m ->
  (path_cmp p q = Lt <-> earlier l m) /\ (path_cmp p q = Eq <-> l = m) /\ (path_cmp p q = Gt <-> earlier m l).
Proof.
  intros C D. apply consists_iff in C, D. subst. repeat split.
  - apply earlier_iff.
  - apply earlier_iff.
  - apply path_cmp_eq.
  - apply path_cmp_eq.
  - intros H. apply earlier_iff. change (path_cmp q p = Lt). rewrite path_cmp_sym, H. reflexivity.
  - intros H. apply earlier_iff in H. change (path_cmp q p = Lt) in H. rewrite path_cmp_sym, H. reflexivity.
Qed.

(** ** Absolute paths *)

Lemma absolute_iff p : is_absolute p = true <-> In RootDir (components p).
Proof.
  assert (K : forall f s, ~ In RootDir (component_of f s)).
  { intros f s. unfold component_of. destruct (beq s []); [intros []|].
    destruct (beq s (b ".")); [destruct f; cbn; intuition discriminate|].
    destruct (beq s (b "..")); cbn; intuition discriminate. }
  split.
  - destruct p as [|c p]; [discriminate|]. intros H. apply ch_eq in H. subst c. rewrite components_root. left. reflexivity.
  - unfold components. destruct (segments_some [] p) as [s [l Q]]. rewrite Q. destruct (is_absolute p); [reflexivity|].
    intros I. exfalso. apply in_app_or in I as [I|I]; [exact (K _ _ I)|].
    apply in_flat_map in I as [x [_ I]]. exact (K _ _ I).
Qed.

Lemma join_in d p l m : components d = l -> components p = m -> d <> [] -> ~ In RootDir m ->
  components (path_join d p) = l ++ after_slash m.
Proof.
  intros <- <- N R. apply join_components; [|exact N].
  destruct (is_absolute p) eqn:A; [exfalso; apply R, absolute_iff, A|reflexivity].
Qed.

Lemma join_absolute d p m : consists p m -> d = [] \/ In RootDir m -> consists (path_join d p) m.
Proof.
  intros C [->|I]; unfold path_join.
  - cbn [last_byte rev]. destruct (is_absolute p); exact C.
  - apply consists_iff in C as Q. subst m. apply absolute_iff in I. rewrite I. exact C.
Qed.
