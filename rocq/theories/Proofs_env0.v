(** * The environments of the examples contain only text *)

From Coq Require Import String List Ascii Bool Arith Lia.
From Verif Require Import Text Utf8 Env Spec_keep Proofs_text Conformance Runs.
Import ListNotations.

Lemma unescape0_conts ks : forall r, Forall (fun c => is_cont c = true) ks ->
  unescape0 (ks ++ r) = option_map (app ks) (unescape0 r).
Proof.
  induction ks as [|k ks IH]; intros r F; simpl.
  { destruct (unescape0 r); reflexivity. }
  inversion F as [|? ? K F']; subst. specialize (IH r F').
  destruct k as [[] [] [] [] [] [] [] []]; try discriminate K; rewrite IH; destruct (unescape0 r); reflexivity.
Qed.

Lemma unescape0_char c : forall r, c <> "\"%char ->
  unescape0 (c :: r) = option_map (cons c) (unescape0 r).
Proof. intros r N. destruct c as [[] [] [] [] [] [] [] []]; try reflexivity. contradiction. Qed.

Lemma unescape0_utf8 : forall n s v, length s <= n -> utf8 s -> unescape0 s = Some v -> utf8 v.
Proof.
  induction n as [|n IH]; intros s v L U H.
  { destruct s; [|simpl in L; lia]. injection H as <-. constructor. }
  assert (Char : forall c r v, length (c :: r) <= S n -> utf8 (c :: r) ->
    option_map (cons c) (unescape0 r) = Some v -> utf8 v).
  { clear s v L U H. intros c r v L U H.
    destruct (utf8_cons_inv c r U) as (ks & r' & -> & UC & UR & _ & FK & _).
    rewrite unescape0_conts in H by exact FK.
    destruct (unescape0 r') as [v'|] eqn:Q; [|discriminate]. injection H as <-.
    change (c :: ks ++ v') with ((c :: ks) ++ v'). constructor; [exact UC|].
    eapply IH; [|exact UR|exact Q]. simpl in L. rewrite app_length in L. lia. }
  destruct s as [|c r]. { injection H as <-. constructor. }
  destruct (ascii_dec c "\"%char) as [->|N].
  2: { rewrite unescape0_char in H by exact N. eapply Char; eauto. }
  assert (UR : utf8 r) by (eapply utf8_ascii_tail; [|exact U]; vm_compute; lia).
  destruct r as [|d r]. { injection H as <-. exact U. }
  destruct (ascii_dec d "n"%char) as [->|N].
  - simpl in H. destruct (unescape0 r) as [v'|] eqn:Q; [|discriminate]. injection H as <-.
    apply utf8_ascii_cons; [vm_compute; lia|]. eapply IH; [| |exact Q]; [simpl in L; lia|].
    eapply utf8_ascii_tail; [|exact UR]; vm_compute; lia.
  - assert (Q : unescape0 ("\"%char :: d :: r) = option_map (cons d) (unescape0 r)).
    { destruct d as [[] [] [] [] [] [] [] []]; try reflexivity. contradiction. }
    rewrite Q in H. eapply Char; [|exact UR|exact H]. simpl in *; lia.
Qed.

Lemma textual_env0 files dirs : Forall (fun '(_, t) => utf8 t) files -> textual (env0_with files dirs).
Proof.
  intros F. split; cbn [e_getenv e_unescape e_date e_format e_html e_yaml e_toml e_glob env0_with fst].
  - intros p t H. cbn in H. destruct (find _ files) as [[q u]|] eqn:Q; [|discriminate]. injection H as <-.
    apply find_some in Q as [Q _]. rewrite List.Forall_forall in F. exact (F _ Q).
  - intros t v U H. exact (unescape0_utf8 _ t v (le_n _) U H).
  - intros k v H. destruct (beq k (b "HOME")); [|discriminate]. injection H as <-.
    repeat (apply utf8_ascii_cons; [vm_compute; lia|]). constructor.
  - intros; discriminate.
  - intros; discriminate.
  - intros; discriminate.
  - intros x v [].
  - intros; discriminate.
Qed.
