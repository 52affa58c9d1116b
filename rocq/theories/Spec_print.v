(** * Specification: which trees survive printing as S-expressions *)

From Coq Require Import String List Ascii Bool Arith.
From Verif Require Import Text Utf8 Res Ast Spec_grammar Spec_tree.
Import ListNotations.

(** The last token of the printed node is an identifier. *)
Fixpoint ends_ident (n : node) : bool :=
  match n with
  | Sym _ | Num _ => true
  | Str _ | Raw _ | Lst _ _ _ _ _ => false
  | Attr _ v _ _ => ends_ident v
  end.
(** The last token of the printed node is the empty string. *)
Fixpoint ends_empty (n : node) : bool :=
  match n with
  | Str a => match a_val a with [] => true | _ => false end
  | Attr _ v _ _ => ends_empty v
  | _ => false
  end.

(** The node's text starts with a delimiter, so that an identifier may stand
    directly in front of it. *)
Definition self_delimiting (n : node) : Prop :=
  leading_ws n <> [] \/
  match n with Lst _ _ _ _ _ | Str _ | Raw _ => True | _ => False end.
(** The node's text starts with a quote. *)
Definition starts_quoted (n : node) : Prop :=
  leading_ws n = [] /\ match n with Str _ => True | _ => False end.

(** [m] may follow [n]: neither runs an identifier into the next token nor an
    empty string into a quote (which would read as a triple quote). *)
Definition apart (n m : node) : Prop :=
  (ends_ident n = true -> self_delimiting m) /\
  (ends_empty n = true -> ~ starts_quoted m).
Fixpoint spaced (ns : list node) : Prop :=
  match ns with
  | n :: ((m :: _) as ns') => apart n m /\ spaced ns'
  | _ => True
  end.

(** Trees whose values can be read back from their own text. *)
Fixpoint readable (n : node) : Prop :=
  Forall blank_char (leading_ws n) /\
  match n with
  | Sym a => utf8 (a_val a) /\ Forall plain (a_val a) /\
             exists c t, a_val a = c :: t /\ symbol_start c
  | Num a => utf8 (a_val a) /\ Forall plain (a_val a) /\
             exists c t, a_val a = c :: t /\ number_start c
  | Str a | Raw a => utf8 (a_val a)
  | Lst ns _ ew _ _ =>
      Forall blank_char ew /\ spaced ns /\
      (fix all (l : list node) : Prop :=
         match l with [] => True | x :: l' => readable x /\ all l' end) ns
  | Attr k v _ _ => utf8 k /\ Ident k /\ self_delimiting v /\ readable v
  end.

(** What is read back: the same tree, except that raw content comes back as a
    use of the [%raw] macro. *)
Fixpoint reread (n : node) : stree :=
  match n with
  | Sym a => SSym (a_ws a) (a_val a)
  | Num a => SNum (a_ws a) (a_val a)
  | Str a => SStr (a_ws a) (a_val a)
  | Raw a => SList (a_ws a) [SSym [] (b "%raw"); SStr (b " ") (a_val a)] []
  | Lst ns _ ew _ w => SList w (map reread ns) ew
  | Attr k v _ w => SAttr w k (reread v)
  end.

(** No raw content anywhere. *)
Fixpoint no_raw (n : node) : Prop :=
  match n with
  | Raw _ => False
  | Lst ns _ _ _ _ =>
      (fix all (l : list node) : Prop :=
         match l with [] => True | x :: l' => no_raw x /\ all l' end) ns
  | Attr _ v _ _ => no_raw v
  | _ => True
  end.

(** ** A reference reader of string escapes

    The meaning of the escapes the printer writes (nul, tab, carriage return,
    newline, quote, backslash and code points in braces),
    as documented for Rust string literals; shows that readers of the kind the
    round-trip theorem asks for exist. *)
From Coq Require Import NArith.

(** UTF-8 encoding of a code point. *)
Definition enc6 (n : N) : ascii := ascii_of_N (128 + n mod 64).
Definition encode (n : N) : bytes :=
  if (n <? 128)%N then [ascii_of_N n]
  else if (n <? 2048)%N then [ascii_of_N (192 + n / 64); enc6 n]
  else if (n <? 65536)%N then [ascii_of_N (224 + n / 4096); enc6 (n / 64); enc6 n]
  else [ascii_of_N (240 + n / 262144); enc6 (n / 4096); enc6 (n / 64); enc6 n].

(** The numbers that stand for a character: no surrogates. *)
Definition scalar_value (n : N) : Prop := (n < 55296 \/ 57344 <= n < 1114112)%N.

Definition hex_value (c : ascii) : N :=
  let n := N_of_ascii c in if (n <? 58)%N then n - 48 else n - 87.

Inductive esc_state := Normal | Escaped | Open | Digits (v : N).
Fixpoint ref_unescape_from (st : esc_state) (s : bytes) : option bytes :=
  match s with
  | [] => match st with Normal => Some [] | _ => None end
  | c :: r =>
      match st with
      | Normal =>
          if ch c BS then ref_unescape_from Escaped r
          else option_map (cons c) (ref_unescape_from Normal r)
      | Escaped =>
          if ch c "u" then ref_unescape_from Open r
          else option_map (cons (if ch c "0" then "000"%char else if ch c "t" then TAB
                 else if ch c "r" then CR else if ch c "n" then LF else c))
                 (ref_unescape_from Normal r)
      | Open => if ch c "{" then ref_unescape_from (Digits 0) r else None
      | Digits v =>
          if ch c "}" then option_map (app (encode v)) (ref_unescape_from Normal r)
          else ref_unescape_from (Digits (v * 16 + hex_value c)) r
      end
  end.
Definition ref_unescape : bytes -> option bytes := ref_unescape_from Normal.

(** A text without its double quotes. *)
Definition unquoted (s : bytes) : bytes := filter (fun c => negb (Ascii.eqb c DQ)) s.
(** The tree in which strings and raw content are written like symbols. *)
Fixpoint unstrung (n : node) : node :=
  match n with
  | Str a | Raw a => Sym a
  | Lst ns st ew es w => Lst (map unstrung ns) st ew es w
  | Attr k v st w => Attr k (unstrung v) st w
  | n => n
  end.
