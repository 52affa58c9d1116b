(** * The program as a whole: the rules and the model *)

From Coq Require Import String List Ascii Bool Arith Lia Permutation.
From Verif Require Import Text Utf8 Res Ast Env State Paths Format Expander Cli Spec_tree Spec_keep Spec_output Spec_css
  Spec_element Spec_order Spec_expand Spec_cli Spec_lang Spec_seam
  Proofs_text Proofs_sheet Proofs_element Proofs_html Proofs_cli Proofs_meaning Proofs_eval Proofs_loop Properties_format Properties_macros
  Properties_state.
Import ListNotations.

(** ** Written forms *)

Lemma ok_dec {A} (r : res A) : (exists x, r = Ok x) \/ forall x, r <> Ok x.
Proof. destruct r; [left; eauto|right; discriminate..]. Qed.

Lemma written_renders printable so t target r : Forall utf8 (flat_map values t) ->
  renders printable so t target false r <-> WrittenAs printable so t target r.
Proof.
  intros V. split.
  - intros R. remember false as d eqn:D. destruct R; try discriminate D.
    + apply wa_text, text_of. reflexivity.
    + apply wa_sexp, sexp_of; [exact V|reflexivity].
    + pose proof (proj1 (html_gen_iff printable so t V _) eq_refl) as X.
      destruct (html_gen printable so t); solve [apply wa_html, X|apply wa_no_html, X].
    + pose proof (proj1 (xml_gen_iff t _) eq_refl) as X.
      destruct (xml_gen t); solve [apply wa_xml, X|apply wa_no_xml, X].
    + pose proof (proj1 (sheet_iff printable t V _) eq_refl) as X.
      destruct (css_gen printable t); solve [apply wa_css, X|apply wa_no_css, X].
  - intros W. destruct W as [s H|s H|s H|q H|s H|q H|s H|q H].
    + apply text_of in H as <-. constructor.
    + apply (sexp_of printable t V) in H as <-. constructor.
    + apply (html_gen_iff printable so t V (Ok s)) in H as <-. constructor.
    + assert (X : html_gen printable so t = q); [|rewrite <- X; constructor]. apply (html_gen_iff printable so t V).
      destruct (nohtmlall_back _ _ _ _ H V) as [_ B]. destruct q; try exact H. destruct (B _ eq_refl).
    + apply (xml_gen_iff t (Ok s)) in H as <-. constructor.
    + assert (X : xml_gen t = q); [|rewrite <- X; constructor]. apply xml_gen_iff.
      destruct (noxmlall_back _ _ H) as [_ B]. destruct q; try exact H. destruct (B _ eq_refl).
    + apply (sheet_iff printable t V (Ok s)) in H as <-. constructor.
    + assert (X : css_gen printable t = q); [|rewrite <- X; constructor]. apply (sheet_iff printable t V).
      pose proof (nosheet_bad _ _ _ H) as B. destruct q; try exact H. destruct (B _ eq_refl).
Qed.

Lemma renders_fun printable so t target doc r r' :
  renders printable so t target doc r -> renders printable so t target doc r' -> r = r'.
Proof.
  intros X Y. inversion X; subst; inversion Y; subst; try reflexivity;
    match goal with H : b _ = b _ |- _ => exfalso; vm_compute in H; discriminate H end.
Qed.

(** ** Documents *)

Lemma unless_bool (P : Prop) (p : bool) x : (p = true <-> P) -> unless P x (if p then [] else x).
Proof. intros H. destruct p; [left|right]; (split; [|reflexivity]); [apply H; reflexivity|]. intros Q. apply H in Q. discriminate. Qed.
Lemma unless_fun P x s s' : unless P x s -> unless P x s' -> s = s'.
Proof. intros [[A ->]|[A ->]] [[B ->]|[B ->]]; try reflexivity; contradiction. Qed.

Lemma page_fun t c s s' : Page t c s -> Page t c s' -> s = s'.
Proof.
  intros [A|A B|h o e A B H O C] [A'|A' B'|h' o' e' A' B' H' O' C']; try contradiction; try reflexivity.
  rewrite (unless_fun _ _ _ _ H H'), (unless_fun _ _ _ _ O O'), (unless_fun _ _ _ _ C C'). reflexivity.
Qed.

Lemma page_some printable so t c : t <> [] -> html_gen printable so t = Ok c ->
  exists s, Page t c s /\ html_document printable so t = Ok s.
Proof.
  intros N G. destruct (c15_document printable so t N) as (d & h & head & body & Hd & Hh & Hhead & Hbody & ->).
  rewrite G. cbn [bind]. eexists. split; [|reflexivity]. destruct d.
  - apply page_own, Hd. reflexivity.
  - assert (D : ~ has_list "!doctype" 1 t) by (intros X; apply Hd in X; discriminate X). destruct h.
    + apply page_typed; [exact D|apply Hh; reflexivity].
    + assert (X : ~ has_list "html" 1 t) by (intros X; apply Hh in X; discriminate X).
      apply page_wrapped; [exact D|exact X| | |]; apply unless_bool; assumption.
Qed.

Lemma xml_page t c h : unless (declares_xml t) xml_header h -> xml_gen t = Ok c -> xml_document t = Ok (h ++ c).
Proof.
  intros U G. destruct t as [|n l].
  - destruct U as [[[? [? [? _]]] _]|[_ ->]]; [discriminate|]. injection G as <-. rewrite app_nil_r. apply c16_empty.
  - destruct (c16_document n l) as [d [D ->]]. rewrite G. cbn [bind]. f_equal. f_equal.
    destruct U as [[[n' [l' [Q X]]] ->]|[X ->]].
    + injection Q as <- <-. destruct d; [exfalso; apply D; auto|reflexivity].
    + destruct d; [reflexivity|]. exfalso. assert (~ ~ headed_by_any_case (b "?xml") n) as Y.
      { intros Z. apply D in Z. discriminate. }
      apply Y. intros Z. apply X. exists n, l. auto.
Qed.

Lemma declares_dec t : declares_xml t \/ ~ declares_xml t.
Proof.
  destruct t as [|n l]; [right; intros [? [? [? _]]]; discriminate|].
  destruct (c16_document n l) as [[|] [D _]].
  - right. intros [n' [l' [Q X]]]. injection Q as <- <-. destruct D as [D _]. exact (D eq_refl X).
  - left. exists n, l. split; [reflexivity|]. unfold headed_by_any_case in *.
    destruct n as [ | | | |[|[a| | | | |] rest] s ew es w|]; try (exfalso; assert (false = true) by
      (apply D; intros (? & ? & ? & ? & ? & ? & Q & _); discriminate Q); discriminate).
    destruct (beq (to_lower (a_val a)) (b "?xml")) eqn:B.
    + apply beq_eq in B. do 6 eexists. split; [reflexivity|exact B].
    + exfalso. assert (false = true); [|discriminate]. apply D. intros (? & ? & ? & ? & ? & ? & Q & X). injection Q as <-.
      rewrite X, beq_refl in B. discriminate.
Qed.

Theorem output_renders printable so t target doc r : Forall utf8 (flat_map values t) ->
  renders printable so t target doc r <-> Output printable so t target doc r.
Proof.
  intros V. assert (WR := fun tg q => written_renders printable so t tg q V). split.
  - intros R. destruct doc; [|apply out_bare, WR, R]. remember true as d eqn:D. destruct R; try discriminate D; try subst doc.
    + apply out_same; [left; reflexivity|]. apply WR. constructor.
    + apply out_same; [right; left; reflexivity|]. apply WR. constructor.
    + destruct t as [|n l]; [apply out_no_html; reflexivity|]. set (t := n :: l) in *.
      assert (N : t <> []) by discriminate. destruct (ok_dec (html_gen printable so t)) as [[c G]|F].
      * destruct (page_some printable so t c N G) as [s [P ->]]. eapply out_html; [exact N| |exact P].
        rewrite <- G. apply WR. constructor.
      * destruct (c15_document printable so t N) as (d1 & h & head & body & _ & _ & _ & _ & ->).
        assert (Q : forall f : bytes -> res bytes, (let* c := html_gen printable so t in f c) = html_gen printable so t)
          by (intros f; destruct (html_gen printable so t); try reflexivity; destruct (F _ eq_refl)).
        rewrite Q. apply out_fault; [left; reflexivity|apply WR; constructor|exact F].
    + destruct (ok_dec (xml_gen t)) as [[c G]|F].
      * assert (U : exists h, unless (declares_xml t) xml_header h)
          by (destruct (declares_dec t); eexists; [left|right]; split; eauto).
        destruct U as [h U]. rewrite (xml_page t c h U G). apply out_xml; [rewrite <- G; apply WR; constructor|exact U].
      * destruct t as [|n l]; [exfalso; eapply F; reflexivity|]. destruct (c16_document n l) as [d1 [_ ->]].
        assert (Q : forall f : bytes -> res bytes, (let* c := xml_gen (n :: l) in f c) = xml_gen (n :: l))
          by (intros f; destruct (xml_gen (n :: l)); try reflexivity; destruct (F _ eq_refl)).
        rewrite Q. apply out_fault; [right; left; reflexivity|apply WR; constructor|exact F].
    + destruct t as [|n l]; [apply out_no_css; reflexivity|]. apply out_css; [discriminate|]. apply WR.
      change (css_document printable (n :: l)) with (css_gen printable (n :: l)). constructor.
  - intros O. destruct O as [tg q H|tg q I H|Q|q N H|Q|c s N H P|c h H U|tg q I H F].
    + apply WR, H.
    + apply WR in H. destruct I as [<-|[<-|[]]].
      * rewrite (renders_fun _ _ _ _ _ _ _ H (as_text _ _ _ _)). constructor.
      * rewrite (renders_fun _ _ _ _ _ _ _ H (as_sexp _ _ _ _)). constructor.
    + subst t. change (Ok [LF]) with (css_document printable []). constructor.
    + apply WR in H. rewrite (renders_fun _ _ _ _ _ _ _ H (as_css _ _ _)).
      replace (css_gen printable t) with (css_document printable t) by (destruct t; [contradiction|reflexivity]). constructor.
    + subst t. change (Ok empty_page) with (html_document printable so []). constructor.
    + apply WR in H. pose proof (renders_fun _ _ _ _ _ _ _ (as_html _ _ _) H) as G.
      destruct (page_some printable so t c N G) as [s' [P' D]]. rewrite (page_fun _ _ _ _ P P'), <- D. constructor.
    + apply WR in H. pose proof (renders_fun _ _ _ _ _ _ _ (as_xml _ _ _) H) as G.
      rewrite <- (xml_page t c h U G). constructor.
    + apply WR in H. destruct I as [<-|[<-|[]]].
      * pose proof (renders_fun _ _ _ _ _ _ _ (as_html _ _ _) H) as G. destruct t as [|n l]; [exfalso; eapply F; symmetry; exact G|].
        destruct (c15_document printable so (n :: l)) as (d1 & h & head & body & _ & _ & _ & _ & D); [discriminate|].
        rewrite G in D. assert (X : html_document printable so (n :: l) = q)
          by (rewrite D; destruct q; try reflexivity; destruct (F _ eq_refl)).
        rewrite <- X. constructor.
      * pose proof (renders_fun _ _ _ _ _ _ _ (as_xml _ _ _) H) as G. destruct t as [|n l]; [exfalso; eapply F; symmetry; exact G|].
        destruct (c16_document n l) as [d1 [_ D]].
        rewrite G in D. assert (X : xml_document (n :: l) = q)
          by (rewrite D; destruct q; try reflexivity; destruct (F _ eq_refl)).
        rewrite <- X. constructor.
Qed.

(** ** One source *)

Lemma textual_includes path E : textual E -> textual (with_includes path E).
Proof. intros [A B C D F G H I]. constructor; assumption. Qed.
Lemma textual_order o E : textual E -> textual (with_order o E).
Proof. intros [A B C D F G H I]. constructor; assumption. Qed.

Lemma source_text W n job name text : textual_world W ->
  source_of W (w_env W n) job = (name, Some text) -> utf8 text.
Proof.
  intros [T U] S. destruct job as [p|]; cbn in S; injection S as _ S; [|auto]. eapply t_read; [apply T|exact S].
Qed.

Lemma not_unfinished W n {A} (r : res A) (N : r <> OutOfFuel) (F : forall x, r <> Ok x) :
  ends W n (Some (rmap (fun _ => @nil ascii) r)) <> Some Unfinished.
Proof. destruct r as [|e| | |]; cbn; try discriminate; [destruct (w_shows W n e); discriminate|contradiction]. Qed.

Lemma seen_ok r ns c : seen r = Ok (ns, c) -> exists s, r = Ok (ns, s) /\ visible s = c.
Proof. destruct r as [[x s]| | | |]; cbn; intros Q; try discriminate. injection Q as <- <-. eauto. Qed.

Lemma renders_fuel printable so t target doc r : renders printable so t target doc r -> r <> OutOfFuel.
Proof.
  assert (H : forall d : bool, (if d then html_document printable so t else html_gen printable so t) <> OutOfFuel).
  { assert (G := c19_html_panics printable so t). intros [|]; [|intros Q; rewrite Q in G; exact G].
    destruct t as [|n l]; [discriminate|].
    destruct (c15_document printable so (n :: l)) as (d1 & h & head & body & _ & _ & _ & _ & ->); [discriminate|].
    destruct (html_gen printable so (n :: l)); try discriminate. destruct G. }
  assert (X : forall d : bool, (if d then xml_document t else xml_gen t) <> OutOfFuel).
  { assert (G := c19_xml_panics t). intros [|]; [|intros Q; rewrite Q in G; exact G].
    destruct t as [|n l]; [discriminate|]. destruct (c16_document n l) as [d1 [_ ->]].
    destruct (xml_gen (n :: l)); try discriminate. destruct G. }
  assert (C : css_gen printable t <> OutOfFuel) by (intros Q; pose proof (c18_css_panics printable t) as G; rewrite Q in G; exact G).
  intros [| | | | | | |]; try discriminate.
  - exact (H true).
  - exact (H false).
  - exact (X true).
  - exact (X false).
  - destruct t; [discriminate|exact C].
  - exact C.
Qed.

Lemma seen_fuel r : seen r = OutOfFuel -> r = OutOfFuel.
Proof. destruct r as [[x s]| | | |]; cbn; intros Q; try discriminate; reflexivity. Qed.

Lemma rmap_seen (r : out) : (forall x, r <> Ok x) ->
  rmap (fun _ => @nil ascii) (seen r) = rmap (fun _ => []) r /\ forall x, seen r <> Ok x.
Proof. destruct r as [[x s]| | | |]; intros F; [destruct (F _ eq_refl)|split; [reflexivity|discriminate]..]. Qed.

(** Worlds that differ in the orders only. *)
Definition alike (W W' : world) (n : nat) (o : nat -> list bytes -> list bytes) : Prop :=
  w_stdin W' = w_stdin W /\ w_printable W' = w_printable W /\ w_shows W' = w_shows W /\ w_env W' n = with_order o (w_env W n).

Lemma alike_source W W' n o job : alike W W' n o -> source_of W' (w_env W' n) job = source_of W (w_env W n) job.
Proof. intros [A [_ [_ C]]]. destruct job; cbn; rewrite ?C, ?A; reflexivity. Qed.

Lemma translated_sound W os f target doc path n job r : textual_world W ->
  (forall n, permuting (with_order (os n) (w_env W n))) ->
  translates (with_orders os W) f target doc path n job r -> ends W n r <> Some Unfinished ->
  Translated W target doc path n job r.
Proof.
  intros T P H E. set (W' := with_orders os W) in *.
  assert (A : alike W W' n (os n)) by (repeat split). assert (SO := alike_source W W' n (os n) job A).
  set (EN := with_includes path (w_env W n)) in *.
  assert (TE : textual EN) by (apply textual_includes, T).
  assert (M : forall name text, source_of W (w_env W n) job = (name, Some text) ->
    expand (with_order (os n) EN) f name text <> OutOfFuel ->
    program_means EN name text (seen (expand (with_order (os n) EN) f name text))).
  { intros name text S N. apply program_meaning; [apply TE|eapply source_text; eauto|].
    exists (os n), (expand (with_order (os n) EN) f name text). split; [exact (P n)|]. split; [|reflexivity].
    apply expand_settles, N. }
  destruct H as [name S|name text q S X F|name text tree s q S X R]; rewrite SO in S.
  - eapply tr_unread, S.
  - change (expand (with_order (os n) EN) f name text = q) in X.
    assert (N : q <> OutOfFuel) by (intros ->; apply E; reflexivity).
    destruct (rmap_seen q F) as [<- F']. eapply tr_stops; [exact S| |exact F'].
    rewrite <- X. apply M; [exact S|]. rewrite X. exact N.
  - change (expand (with_order (os n) EN) f name text = Ok (tree, s)) in X.
    assert (Q := M name text S). rewrite X in Q. cbn [seen] in Q.
    eapply tr_writes; [exact S|apply Q; discriminate|]. apply output_renders; [|exact R].
    apply (c53_text _ _ _ _ _ _ (textual_order (os n) _ TE) (source_text W n job name text T S) X).
Qed.

Lemma translated_complete W target doc path n job r : textual_world W -> Translated W target doc path n job r ->
  ends W n r <> Some Unfinished /\
  exists o, permuting (with_order o (w_env W n)) /\ exists f0, forall f W', f0 <= f -> alike W W' n o ->
    translates W' f target doc path n job r.
Proof.
  intros T H. set (EN := with_includes path (w_env W n)) in *.
  assert (TE : textual EN) by (apply textual_includes, T).
  assert (ID : permuting (with_order (fun _ l => l) (w_env W n))) by (intros ? ?; apply Permutation_refl).
  destruct H as [name S|name text q S M F|name text tree c q S M O].
  - split; [discriminate|]. exists (fun _ l => l). split; [exact ID|]. exists 0. intros f W' _ A.
    apply t_unread with name. rewrite (alike_source _ _ _ _ _ A). exact S.
  - apply (program_meaning EN) in M; [|apply TE|eapply source_text; eauto]. destruct M as [o [r [P [[N [f0 X]] <-]]]].
    assert (F' : forall x, r <> Ok x) by (intros [x s] ->; eapply F; reflexivity).
    destruct (rmap_seen r F') as [-> _]. split; [apply not_unfinished; assumption|].
    exists o. split; [exact P|]. exists f0. intros f W' L A.
    eapply t_fails; [rewrite (alike_source _ _ _ _ _ A); exact S| |exact F'].
    destruct A as [_ [_ [_ ->]]]. exact (X f L).
  - apply (program_meaning EN) in M; [|apply TE|eapply source_text; eauto]. destruct M as [o [r [P [[N [f0 X]] Q]]]].
    apply seen_ok in Q as [s [-> <-]].
    assert (V : Forall utf8 (flat_map values tree))
      by exact (proj1 (c53_text _ _ _ _ _ _ (textual_order o _ TE) (source_text W n job name text T S) (X f0 (le_n f0)))).
    apply (output_renders _ _ _ _ _ _ V) in O. split.
    { pose proof (renders_fuel _ _ _ _ _ _ O). destruct q as [|e| | |]; cbn; try discriminate; [destruct (w_shows W n e); discriminate|contradiction]. }
    exists o. split; [exact P|]. exists f0. intros f W' L A.
    eapply t_renders; [rewrite (alike_source _ _ _ _ _ A); exact S| |].
    + destruct A as [_ [_ [_ ->]]]. exact (X f L).
    + destruct A as [_ [-> _]]. exact O.
Qed.

(** ** All sources *)

Lemma printed_sound W os f target doc path n l out e : textual_world W ->
  (forall n, permuting (with_order (os n) (w_env W n))) ->
  prints (with_orders os W) f target doc path n l out e -> e <> Unfinished -> Printed W target doc path n l out e.
Proof.
  intros T P H. induction H as [n|n job l text out e A _ IH|n job l r e A B]; intros E.
  - constructor.
  - eapply pr_next; [|apply IH, E]. eapply translated_sound; eauto; discriminate.
  - change (ends W n r = Some e) in B. eapply pr_fail; [|exact B]. eapply translated_sound; eauto; congruence.
Qed.

Lemma printed_complete W target doc path n l out e : textual_world W -> Printed W target doc path n l out e ->
  e <> Unfinished /\
  exists os, (forall n, permuting (with_order (os n) (w_env W n))) /\ exists f0, forall f W', f0 <= f ->
    (forall k, n <= k -> alike W W' k (os k)) -> prints W' f target doc path n l out e.
Proof.
  intros T H. induction H as [n|n job l text out e A _ [N [os [P [f1 R]]]]|n job l r e A B].
  - split; [discriminate|]. exists (fun _ _ l => l). split; [intros ? ? ?; apply Permutation_refl|]. exists 0. constructor.
  - split; [exact N|]. destruct (translated_complete _ _ _ _ _ _ _ T A) as [_ [o [PO [f0 X]]]].
    exists (fun k => if k =? n then o else os k). split.
    { intros k. destruct (Nat.eqb_spec k n) as [->|]; auto. }
    exists (Nat.max f0 f1). intros f W' L K. eapply p_next.
    + apply X; [lia|]. specialize (K n (le_n n)). rewrite Nat.eqb_refl in K. exact K.
    + apply R; [lia|]. intros k Lk. specialize (K k ltac:(lia)). destruct (Nat.eqb_spec k n); [lia|exact K].
  - destruct (translated_complete _ _ _ _ _ _ _ T A) as [N [o [PO [f0 X]]]]. split; [congruence|].
    exists (fun k => if k =? n then o else fun _ l => l). split.
    { intros k. destruct (Nat.eqb_spec k n) as [->|]; [exact PO|]. intros ? ?; apply Permutation_refl. }
    exists f0. intros f W' L K. specialize (K n (le_n n)). rewrite Nat.eqb_refl in K.
    eapply p_fail; [apply X; [exact L|exact K]|]. destruct K as [_ [_ [Q _]]]. unfold ends. rewrite Q. exact B.
Qed.

(** ** The program *)

Lemma understood_orders os W arg c : understood (with_orders os W) arg c <-> understood W arg c.
Proof. split; intros H; destruct H; econstructor; eassumption. Qed.
Lemma understood_all os W args cs : Forall2 (understood (with_orders os W)) args cs <-> Forall2 (understood W) args cs.
Proof. split; intros H; induction H; constructor; auto; eapply understood_orders; eassumption. Qed.

Lemma jobs_unique cs l l' : jobs cs l -> jobs cs l' -> l = l'.
Proof. intros [[A ->]|[A ->]] [[B ->]|[B ->]]; try reflexivity; contradiction. Qed.
Lemma document_unique cs d d' : as_document cs d -> as_document cs d' -> d = d'.
Proof.
  unfold as_document. intros A B. destruct d, d'; try reflexivity; exfalso.
  - assert (X : true = false) by (apply A, B; reflexivity). discriminate.
  - assert (X : true = false) by (apply B, A; reflexivity). discriminate.
Qed.

Lemma understood_prefix W args : (exists before cs arg c code after, args = before ++ arg :: after /\
    Forall2 (understood W) before cs /\ Forall (fun c => stops c = None) cs /\ understood W arg c /\ stops c = Some code) \/
  exists cs, Forall2 (understood W) args cs /\ Forall (fun c => stops c = None) cs.
Proof.
  induction args as [|arg args IH]; [right; exists []; split; constructor|].
  destruct (understood_some W arg) as [c U]. destruct (stops c) as [code|] eqn:S.
  - left. exists [], [], arg, c, code, args. repeat split; auto.
  - destruct IH as [[be [cs [arg' [c' [code [af [-> [A [B [C D]]]]]]]]]]|[cs [A B]]].
    + left. exists (arg :: be), (c :: cs), arg', c', code, af. repeat split; auto.
    + right. exists (c :: cs). split; constructor; auto.
Qed.

Theorem seam_sound W os f args out e : textual_world W -> (forall n, permuting (with_order (os n) (w_env W n))) ->
  main (with_orders os W) f args = (out, e) -> e <> Unfinished -> Seam W args out e.
Proof.
  intros T P M N. destruct (understood_prefix W args) as [[be [cs [arg [c [code [af [-> [A [B [C D]]]]]]]]]]|[cs [A B]]].
  - rewrite (main_stops (with_orders os W) f be cs arg c code af) in M; [|apply understood_all, A|exact B|apply understood_orders, C|exact D].
    injection M as <- <-. eapply seam_stops; eauto.
  - destruct (targets_of cs) as [|x l] eqn:TG.
    + rewrite (main_untargeted _ f args cs) in M; [|apply understood_all, A|exact B|exact TG].
      injection M as <- <-. eapply seam_no_target; eauto.
    + destruct (@exists_last _ (x :: l)) as [ts [t Q]]; [discriminate|]. rewrite Q in TG.
      destruct (main_prints (with_orders os W) f args cs ts t) as [jl [doc [path [J [DC [SP R]]]]]];
        [apply understood_all, A|exact B|exact TG|].
      rewrite M in R. cbn [fst snd] in R. eapply seam_prints; eauto. eapply printed_sound; eauto.
Qed.

Theorem seam_complete W args out e : textual_world W -> Seam W args out e -> e <> Unfinished /\
  exists os, (forall n, permuting (with_order (os n) (w_env W n))) /\
    exists f0, forall f, f0 <= f -> main (with_orders os W) f args = (out, e).
Proof.
  intros T H. destruct H as [be cs arg c code af -> A B C D|cs A B TG|cs ts t l doc path out e A B TG J DC SP R].
  - split; [discriminate|]. exists (fun _ _ l => l). split; [intros ? ? ?; apply Permutation_refl|]. exists 0. intros f _.
    eapply main_stops; [apply understood_all, A|exact B|apply understood_orders, C|exact D].
  - split; [discriminate|]. exists (fun _ _ l => l). split; [intros ? ? ?; apply Permutation_refl|]. exists 0. intros f _.
    eapply main_untargeted; [apply understood_all, A|exact B|exact TG].
  - destruct (printed_complete _ _ _ _ _ _ _ _ T R) as [N [os [P [f0 X]]]]. split; [exact N|]. exists os. split; [exact P|].
    exists f0. intros f L. specialize (X f (with_orders os W) L ltac:(intros; repeat split)).
    destruct (main_prints (with_orders os W) f args cs ts t) as [jl [doc' [path' [J' [DC' [SP' R']]]]]];
      [apply understood_all, A|exact B|exact TG|].
    rewrite (jobs_unique _ _ _ J' J), (document_unique _ _ _ DC' DC), (search_unique _ _ _ SP' SP) in R'.
    destruct (prints_fun _ _ _ _ _ _ _ _ _ _ _ X R') as [-> ->]. apply surjective_pairing.
Qed.

Theorem seam_iff W args out e : textual_world W -> Seam W args out e <->
  e <> Unfinished /\ exists os, (forall n, permuting (with_order (os n) (w_env W n))) /\
    exists f0, forall f, f0 <= f -> main (with_orders os W) f args = (out, e).
Proof.
  intros T. split; [apply seam_complete, T|]. intros [N [os [P [f0 M]]]].
  exact (seam_sound W os f0 args out e T P (M f0 (le_n f0)) N).
Qed.

(** A run that ends does so with every larger budget. *)
Lemma run_jobs_more W f f' c l : f <= f' -> forall n out e, run_jobs W f c n l = (out, e) -> e <> Unfinished ->
  run_jobs W f' c n l = (out, e).
Proof.
  intros L. induction l as [|job l IH]; intros n out e; cbn [run_jobs]; [auto|].
  set (E := with_includes _ _). destruct (match job with Some p => (p, e_read E p) | None => (b "<stdin>", w_stdin W) end) as [name [text|]]; [|auto].
  destruct (expand_le E f f' name text L) as [->| ->]; [intros Q; injection Q as <- <-; contradiction|].
  destruct (expand E f' name text) as [[t s]| | | |]; auto.
  destruct (formatted (w_printable W) (target c) (is_doc c) t s) as [[g| | | |]|]; auto.
  destruct (run_jobs W f c (S n) l) as [o1 e1] eqn:R. intros Q N. injection Q as <- <-.
  rewrite (IH (S n) o1 e1 R N). reflexivity.
Qed.
Theorem main_more W f f' args out e : f <= f' -> main W f args = (out, e) -> e <> Unfinished -> main W f' args = (out, e).
Proof.
  intros L. unfold main. destruct (read_args W args defaults) as [c|]; [|auto].
  destruct (beq (target c) []); [auto|]. apply run_jobs_more, L.
Qed.

Theorem seam_silent W args : textual_world W ->
  (forall out e, ~ Seam W args out e) <->
  forall os, (forall n, permuting (with_order (os n) (w_env W n))) ->
    forall f, snd (main (with_orders os W) f args) = Unfinished.
Proof.
  intros T. split.
  - intros H os P f. destruct (main (with_orders os W) f args) as [out e] eqn:M. cbn [snd].
    destruct e; try reflexivity; exfalso; eapply H; eapply seam_sound; eauto; discriminate.
  - intros H out e S. destruct (seam_complete W args out e T S) as [N [os [P [f0 M]]]].
    specialize (H os P f0). rewrite (M f0 (le_n f0)) in H. contradiction.
Qed.

(** If no source has two meanings, neither has the program. *)
Lemma output_fun printable so t target doc r r' : Forall utf8 (flat_map values t) ->
  Output printable so t target doc r -> Output printable so t target doc r' -> r = r'.
Proof. intros V A B. apply output_renders in A, B; try exact V. eapply renders_fun; eauto. Qed.

Lemma means_utf8 W n path job name text tree c : textual_world W ->
  source_of W (w_env W n) job = (name, Some text) ->
  program_means (with_includes path (w_env W n)) name text (Ok (tree, c)) -> Forall utf8 (flat_map values tree).
Proof.
  intros T S M. assert (TE := textual_includes path _ (proj1 T n)).
  apply program_meaning in M; [|apply TE|eapply source_text; eauto]. destruct M as [o [r [P [[N [f0 X]] Q]]]].
  apply seen_ok in Q as [s [-> _]].
  exact (proj1 (c53_text _ _ _ _ _ _ (textual_order o _ TE) (source_text W n job name text T S) (X f0 (le_n f0)))).
Qed.

Lemma translated_fun W target doc path n job r r' : textual_world W -> unambiguous W path ->
  Translated W target doc path n job r -> Translated W target doc path n job r' -> r = r'.
Proof.
  intros T A H H'. destruct H as [na S|na tx q S M F|na tx tr c q S M O]; destruct H' as [na' S'|na' tx' q' S' M' F'|na' tx' tr' c' q' S' M' O'];
    rewrite S in S'; try discriminate S'; try reflexivity; injection S' as <- <-;
    pose proof (A _ _ _ _ _ _ S M M') as X.
  - subst. reflexivity.
  - exfalso. eapply F, X.
  - exfalso. eapply F'. symmetry. exact X.
  - injection X as <- <-. f_equal. eapply output_fun; eauto. eapply means_utf8; eauto.
Qed.
Lemma printed_fun W target doc path n l out e out' e' : textual_world W -> unambiguous W path ->
  Printed W target doc path n l out e -> Printed W target doc path n l out' e' -> out = out' /\ e = e'.
Proof.
  intros T A H. revert out' e'. induction H as [n|n job l text out e X _ IH|n job l r e X B]; intros out' e' H'; inversion H'; subst.
  - auto.
  - match goal with Y : Translated _ _ _ _ _ _ _ |- _ => pose proof (translated_fun _ _ _ _ _ _ _ _ T A X Y) as Q; inversion Q; subst end.
    match goal with Y : Printed _ _ _ _ _ _ _ _ |- _ => destruct (IH _ _ Y) as [-> ->] end. auto.
  - match goal with Y : Translated _ _ _ _ _ _ _ |- _ => pose proof (translated_fun _ _ _ _ _ _ _ _ T A X Y) as Q; subst end. discriminate.
  - match goal with Y : Translated _ _ _ _ _ _ (Some (Ok _)) |- _ => pose proof (translated_fun _ _ _ _ _ _ _ _ T A X Y) as Q; subst end. discriminate.
  - match goal with Y : Translated _ _ _ _ _ _ ?q, Z : ends _ _ ?q = Some e' |- _ => pose proof (translated_fun _ _ _ _ _ _ _ _ T A X Y) as Q; subst end.
    split; [reflexivity|congruence].
Qed.

Lemma same_commands W args cs cs' : Forall2 (understood W) args cs -> Forall2 (understood W) args cs' -> cs = cs'.
Proof.
  intros H. revert cs'. induction H as [|a c args cs U _ IH]; intros cs' H'; inversion H'; subst; [reflexivity|].
  f_equal; [eapply understood_unique; eauto|auto].
Qed.

Theorem seam_determined W args out e out' e' : textual_world W -> (forall path, unambiguous W path) ->
  Seam W args out e -> Seam W args out' e' -> out = out' /\ e = e'.
Proof.
  intros T A. assert (M : forall before cs arg c code after cs', args = before ++ arg :: after ->
    Forall2 (understood W) before cs -> Forall (fun c => stops c = None) cs -> understood W arg c -> stops c = Some code ->
    Forall2 (understood W) args cs' -> Forall (fun c => stops c = None) cs' -> False).
  { intros before cs arg c code after cs' -> _ _ U S F N. apply Forall2_app_inv_l in F as [l1 [l2 [_ [F ->]]]].
    inversion F; subst. apply Forall_app in N as [_ N]. inversion N; subst.
    match goal with Y : understood W arg ?d |- _ => rewrite (understood_unique W arg c d U Y) in S end. congruence. }
  intros H H'. destruct H as [be cs arg c code af Q F N U S|cs F N TG|cs ts t l doc path out e F N TG J DC SP R];
    destruct H' as [be' cs' arg' c' code' af' Q' F' N' U' S'|cs' F' N' TG'|cs' ts' t' l' doc' path' out' e' F' N' TG' J' DC' SP' R'];
    try (exfalso; eapply M; eassumption).
  - pose proof (main_stops W 0 be cs arg c code af F N U S) as X. rewrite <- Q, Q' in X.
    rewrite (main_stops W 0 be' cs' arg' c' code' af' F' N' U' S') in X. split; congruence.
  - auto.
  - rewrite (same_commands _ _ _ _ F F') in TG. rewrite TG in TG'. destruct ts'; discriminate.
  - rewrite (same_commands _ _ _ _ F F') in TG. rewrite TG in TG'. destruct ts; discriminate.
  - pose proof (same_commands _ _ _ _ F F') as <-. rewrite TG in TG'. apply app_inj_tail in TG' as [_ <-].
    rewrite (jobs_unique _ _ _ J' J), (document_unique _ _ _ DC' DC), (search_unique _ _ _ SP' SP) in R'.
    eapply printed_fun; eauto.
Qed.
