(** * Properties of argument schemas (C56) *)

From Coq Require Import String List Ascii Bool Arith Lia.
From Verif Require Import Text Res Ast Args Schema Spec_args Spec_schema Proofs_text Proofs_args Proofs_schema
  Scope Env State Bind Expander.
From Verif Require Import Args Schema.
Import ListNotations.

(** ** C56: the procedural macro [arguments!] generates what the schema says *)

(** The positions computed at compile time are those the generated matcher
    accepts at run time, and those the pattern stands for. *)
Theorem c56_patterns : forall p, proper p ->
  exists l, finite p = Ok l /\ forall pos, (In pos l <-> denotes p pos) /\ (matches p pos = true <-> denotes p pos).
Proof.
  intros p P. destruct (finite_proper p P) as (l & F & _ & D). exists l. split; [exact F|].
  intros pos. split; [apply D|apply matches_proper, P].
Qed.
Print Assumptions c56_patterns.

(** A schema in which no position occurs twice compiles, and the generated
    code accepts exactly the argument lists that obey the schema, and unpacks
    them; everything else is an ordinary error.  In particular it never
    panics, whatever the order of the compile-time hash map. *)
Theorem c56_schema : forall sch ts, written sch ts -> consistent sch ->
  exists c, compile ts = Ok c /\
    forall names call ps, names_of sch names ->
      (obeys sch ps -> exists x, generated c names call ps = Ok x /\ unpacked sch ps x) /\
      (~ obeys sch ps -> exists e, generated c names call ps = Err e).
Proof.
  intros sch ts W C. exists (code_of sch). split; [exact (compiled sch ts W C)|].
  intros names call ps N. exact (run_schema sch names call ps C N).
Qed.
Print Assumptions c56_schema.

(** Anything that is not such a schema is rejected at compile time: unknown
    words and types, missing colons or commas, patterns with open ends. *)
Theorem c56_rejected : forall ts,
  ((exists c, compile ts = Ok c) <-> exists sch, legible sch ts) /\
  ((exists x, compile ts = Panic x) <-> ~ exists sch, legible sch ts).
Proof. exact compile_legible. Qed.
Print Assumptions c56_rejected.

(** The schemas of the expander, and the tables of the model. *)
Definition at_ (p : pat) : tt := TkGroup (Group Paren (Some p) [] [] (fun _ => true)).
Definition among (l : list bytes) : tt := TkGroup (Group Bracket None (map Exactly l) [] (fun _ => true)).
Definition colon : tt := TkPunct ":".
Definition sep : tt := TkPunct ",".
Definition word (s : string) : tt := TkIdent (b s).
Definition must (p : pat) (t : list tt) : list tt := [word "mandatory"; at_ p; colon] ++ t ++ [sep].
Definition may (p : pat) (t : list tt) : list tt := [word "optional"; at_ p; colon] ++ t ++ [sep].
Definition others (t : list tt) : list tt := [word "rest"; colon] ++ t ++ [sep].
Definition named (s : string) : pat := PatStr (b s).

Definition expander_schemas : list (list tt * rules) := [
  (* expander.rs:698-702 *)
  (must (PatInt 1) [word "string"] ++ may (named "only") [word "literal"; among [b "frontmatter"; b "content"]] ++
   may (named "separator") [word "literal"], rules_markdown);
  (* 803-806, 816-819 *)
  (must (PatInt 1) [word "string"] ++ may (named "separator") [word "literal"], rules_yaml);
  (* 829-833 *)
  (must (PatInt 1) [word "literal"] ++ must (PatInt 2) [word "any"] ++ may (named "separator") [word "literal"], rules_get);
  (* 880-884 *)
  (must (PatInt 1) [word "literal"] ++ may (PatInt 2) [word "number"] ++ may (named "timezone") [word "number"], rules_date);
  (* 930-934 *)
  (must (PatInt 1) [word "literal"] ++ must (PatInt 2) [word "literal"] ++ may (named "timezone") [word "number"],
   rules_timestamp);
  (* 1131-1136 *)
  (must (PatInt 1) [word "any"] ++ must (PatInt 2) [word "symbol"; among [b "in"]] ++ must (PatInt 3) [word "list"] ++
   others [word "any"], rules_for);
  (* 1156-1161 *)
  (must (PatInt 1) [word "literal"] ++
   may (named "type") [word "literal"; among [b "file"; b "directory"; b "any"]] ++
   may (named "sort") [word "literal"; among [b "modified"; b "created"; b "name"; b "type"; b "none"]] ++
   may (named "order") [word "literal"; among [b "ascending"; b "descending"]], rules_glob);
  (* 1350-1352, 1363-1365, 1520-1522 *)
  (others [word "literal"], rules_literals);
  (* 1376-1378 *)
  (must (PatInt 1) [word "list"], rules_reverse);
  (* 1403-1407 *)
  (must (PatInt 1) [word "any"] ++ may (named "order") [word "literal"; among [b "ascending"; b "descending"]] ++
   may (named "key") [word "symbol"], rules_sort);
  (* 1498-1502 *)
  (must (PatInt 1) [word "literal"] ++ may (named "trailing") [word "literal"; among [b "true"; b "false"]] ++
   others [word "literal"], rules_join);
  (* 1541-1544, 1557-1560, 1619-1622 *)
  (must (PatInt 1) [word "symbol"] ++ others [word "any"], rules_map);
  (* 1629-1632 *)
  (must (PatInt 1) [word "any"] ++ others [word "any"], rules_lambda)].

Ltac spelled := first [eapply sp_plain; constructor | apply sp_list
  | eapply (sp_among _ _ (Group Bracket None _ [] (fun _ => true))); [constructor|left; reflexivity]].
Ltac item := first [eapply iw_mandatory; [reflexivity|spelled] | eapply iw_optional; [reflexivity|spelled]
  | eapply iw_rest; spelled].
Ltac denied := repeat match goal with
  | H : denotes (PatInt _) _ |- _ => inversion H; clear H; subst
  | H : denotes (PatStr _) _ |- _ => inversion H; clear H; subst
  | H : In _ (_ :: _) |- _ => destruct H as [H|H]; [try discriminate H; try (injection H as <- <- <-)|]
  | H : In _ [] |- _ => destruct H
  end; try discriminate.
Ltac agrees := repeat first [apply cs_nil | apply cs_rest
  | apply cs_arg; [constructor | intros ?; denied | intros ? ? ? ? ? ? ?; denied |]].
Ltac step := match goal with
  | |- written _ (?a :: ?b :: ?c :: ?t :: TkPunct "," :: ?r) => eapply (wr_cons _ [a; b; c; t] _ r); [item|]
  | |- written _ (?a :: ?b :: ?c :: ?t :: ?g :: TkPunct "," :: ?r) => eapply (wr_cons _ [a; b; c; t; g] _ r); [item|]
  | |- written _ (?a :: ?b :: ?t :: TkPunct "," :: ?r) => eapply (wr_cons _ [a; b; t] _ r); [item|]
  | |- written _ [] => apply wr_nil
  end.
Ltac compile_schema := unfold must, may, others, sep, named; eapply compiles; [cbn [app]; repeat step | agrees | reflexivity].

Theorem c56_tables : Forall (fun '(ts, rs) => compiles_to ts rs) expander_schemas.
Proof. unfold expander_schemas. repeat (apply List.Forall_cons; [compile_schema|]). apply List.Forall_nil. Qed.
Print Assumptions c56_tables.

(** The example in the documentation of the macro (proc macro 56-71), with a
    predicate that wants the digit 2. *)
Definition two (n : node) : bool := match atomic n with Some a => beq (a_val a) (b "2") | None => false end.
Definition doc_tokens : list tt :=
  must (PatRange (Some (BInt 1)) (Some (BInt 3)) true) [word "literal"] ++
  must (PatInt 4) [word "number"; word "fn"; at_ PatOther; TkGroup (Group Brace None [] [] two)] ++
  may (named "trailing") [word "literal"; among [b "true"; b "false"]] ++
  [word "rest"; colon; word "number"].
Definition doc_schema : schema :=
  [IArg true (PatRange (Some (BInt 1)) (Some (BInt 3)) true) (TLiteral []);
   IArg true (PatInt 4) (TNumber [Satisfying two]);
   IArg false (PatStr (b "trailing")) (TLiteral (map Exactly [b "true"; b "false"]));
   IRest (TNumber [])].
Example c56_example_written : written doc_schema doc_tokens.
Proof.
  unfold doc_tokens, doc_schema.
  apply (wr_cons _ [word "mandatory"; at_ _; colon; word "literal"]); [item|].
  apply (wr_cons _ [word "mandatory"; at_ _; colon; word "number"; word "fn"; at_ PatOther; TkGroup (Group Brace None [] [] two)]);
    [apply iw_mandatory; [reflexivity|apply (sp_fn _ TNumber _ (Group Brace None [] [] two)); constructor]|].
  apply (wr_cons _ [word "optional"; at_ _; colon; word "literal"; among _]); [item|].
  apply wr_last. item.
Qed.
Example c56_example_consistent : consistent doc_schema.
Proof.
  apply cs_arg; [constructor; lia|intros D; inversion D; lia| |].
  { intros m' p' t' pos I D D'. inversion D; subst. denied. lia. }
  agrees.
Qed.
Definition at0 : site := Site 0 1 0 0 1.
Definition sym (s : string) : node := Sym (Atom (b s) at0 []).
Definition num (s : string) : node := Num (Atom (b s) at0 []).
Example c56_example_run : exists c, compile doc_tokens = Ok c /\
  names_of doc_schema [b "trailing"] /\
  generated c [b "trailing"] (sym "f")
    [sym "a"; Attr (b "trailing") (sym "true") at0 []; sym "b"; num "3"; num "2"; num "7"] =
  Ok (Args [(PInt 1, VAtom (Atom (b "a") at0 [])); (PInt 2, VAtom (Atom (b "b") at0 []));
            (PInt 3, VAtom (Atom (b "3") at0 [])); (PInt 4, VAtom (Atom (b "2") at0 []));
            (PStr (b "trailing"), VAtom (Atom (b "true") at0 []))]
           [VAtom (Atom (b "7") at0 [])]) /\
  generated c [b "trailing"] (sym "f") [sym "a"; sym "b"; num "3"; num "4"] = Err (EErr EArgValue at0) /\
  generated c [b "trailing"] (sym "f") [sym "a"; num "3"] = Err (EErr EArgMissing at0).
Proof.
  eexists. split; [vm_compute; reflexivity|]. split; [|split; [|split]; vm_compute; reflexivity].
  split; [repeat constructor; intros []|]. intros k. split.
  - intros [<-|[]]. exists false, (PatStr (b "trailing")), (TLiteral (map Exactly [b "true"; b "false"])).
    split; [right; right; left; reflexivity|constructor].
  - intros (m & p & t & I & D). unfold doc_schema in I.
    repeat (destruct I as [I|I]; [try discriminate I; injection I as <- <- <-|]); [inversion D..|destruct I].
    left. reflexivity.
Qed.

(** Rejected: an open range, a semicolon between two rules, an unknown type. *)
Example c56_example_rejected :
  compile (must (PatRange (Some (BInt 1)) None false) [word "any"]) = Panic PExplicit /\
  compile [word "rest"; colon; word "any"; TkPunct ";"; word "rest"; colon; word "any"] = Panic PExplicit /\
  compile [word "rest"; colon; word "anything"] = Panic PExplicit.
Proof. repeat split; vm_compute; reflexivity. Qed.
(** Accepted although it says nothing: a last item without its end. *)
Example c56_example_word : legible [] [word "rest"] /\ compile [word "rest"] = Ok (Code [] None [] []).
Proof. split; [constructor; cbn; auto|reflexivity]. Qed.

(** Without the condition that no position occurs twice the generated code
    can panic: the first rule checks the argument, the last one unpacks it. *)
Theorem c56_overlap_refuted : exists sch ts c ps,
  written sch ts /\ Forall (fun i => match i with IArg _ p _ => proper p | IRest _ => True end) sch /\
  compile ts = Ok c /\ obeys [IArg true (PatRange (Some (BInt 1)) (Some (BInt 2)) true) (TAny [])] ps /\
  generated c [] (sym "f") ps = Panic PUnwrap.
Proof.
  exists [IArg true (PatRange (Some (BInt 1)) (Some (BInt 2)) true) (TAny []); IArg false (PatInt 2) (TSymbol [])].
  exists (must (PatRange (Some (BInt 1)) (Some (BInt 2)) true) [word "any"] ++ may (PatInt 2) [word "symbol"]).
  eexists. exists [sym "a"; Lst [] at0 [] at0 []].
  split.
  { unfold must, may, sep. cbn [app]. repeat step. }
  split; [constructor; [constructor; lia|constructor; [constructor|constructor]]|].
  split; [vm_compute; reflexivity|]. split; [|vm_compute; reflexivity].
  split; [|split].
  - intros pos x m p t I J D. denied. left. reflexivity.
  - intros pos x I N. exfalso. apply N. exists true, (PatRange (Some (BInt 1)) (Some (BInt 2)) true), (TAny []).
    split; [left; reflexivity|]. cbn in I. destruct I as [I|[I|[]]]; injection I as <- <-; constructor; lia.
  - intros p t pos I D. destruct I as [I|[]]. injection I as <- <-. inversion D; subst.
    destruct i as [|[|[|i]]]; try lia; discriminate.
Qed.
Print Assumptions c56_overlap_refuted.
