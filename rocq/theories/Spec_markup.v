(** * What markup text means

    A small reader's grammar for XML and HTML content, written without
    reference to the formatters: [Content] relates a text to the elements,
    attributes, declarations and characters in it.  [items_xml] and
    [items_html] say which of these a syntax tree stands for.

    Reading: a character other than less-than and ampersand stands for
    itself, the five predefined entities for their character; an element is
    an opening tag, content and the closing tag of the same name; in HTML
    names are compared without regard to letter case and void elements have
    an opening tag only. *)

From Coq Require Import String List Ascii Bool Arith.
From Verif Require Import Text Res Ast Spec_grammar.
Import ListNotations.

(** ** Escaped text *)

(** The five predefined entities. *)
Definition entities : list (bytes * ascii) :=
  [ (b "&lt;", "<"%char); (b "&gt;", ">"%char); (b "&quot;", DQ);
    (b "&apos;", "'"%char); (b "&amp;", "&"%char) ].

(** [Escaped t s]: the text [t] reads as the characters [s], and no markup
    character occurs in it except in front of an entity name. *)
Inductive Escaped : bytes -> bytes -> Prop :=
| esc_nil : Escaped [] []
| esc_entity : forall e c t s, In (e, c) entities -> Escaped t s -> Escaped (e ++ t) (c :: s)
| esc_char : forall c t s, ~ In c [ "<"%char; ">"%char; DQ; "'"%char; "&"%char ] ->
    Escaped t s -> Escaped (c :: t) (c :: s).

(** ** Content *)

Inductive item :=
| Char (c : ascii)
| Elem (name : bytes) (attrs : list (bytes * bytes)) (kids : list item)
| Decl (text : bytes).

(** Names: an ASCII letter, underscore, colon or any non-ASCII character,
    followed by these, digits, hyphens and full stops (XML 1.0, production 5,
    with all non-ASCII characters allowed). *)
Definition name_start (c : ascii) : bool :=
  let n := nat_of_ascii c in
  (65 <=? n) && (n <=? 90) || (97 <=? n) && (n <=? 122) || (128 <=? n)
  || Ascii.eqb c "_" || Ascii.eqb c ":".
Definition name_char (c : ascii) : bool :=
  let n := nat_of_ascii c in
  name_start c || (48 <=? n) && (n <=? 57) || Ascii.eqb c "-" || Ascii.eqb c ".".
Definition is_name (s : bytes) : bool :=
  match s with [] => false | c :: r => name_start c && forallb name_char r end.

(** Attribute values that need no interpretation: no quote, less-than or
    ampersand. *)
Definition plain_value (s : bytes) : bool :=
  forallb (fun c => negb (existsb (Ascii.eqb c) [ DQ; "<"%char; "&"%char ])) s.

(** The attributes of an opening tag: white space, name, equals sign, quoted
    value. *)
Inductive Attrs : bytes -> list (bytes * bytes) -> Prop :=
| attrs_nil : Attrs [] []
| attrs_cons : forall w k v t l,
    w <> [] -> Forall blank_char w -> is_name k = true -> plain_value v = true ->
    Attrs t l ->
    Attrs (w ++ k ++ b "=" ++ [DQ] ++ v ++ [DQ] ++ t) ((k, v) :: l).

Section Content.
(** How names are compared, and which (normalised) names are void. *)
Variable norm : bytes -> bytes.
Variable void : bytes -> bool.

Inductive Content : bytes -> list item -> Prop :=
| co_nil : Content [] []
| co_char : forall c t l, c <> "<"%char -> c <> "&"%char ->
    Content t l -> Content (c :: t) (Char c :: l)
| co_entity : forall e c t l, In (e, c) entities ->
    Content t l -> Content (e ++ t) (Char c :: l)
| co_elem : forall n1 n2 at_ attrs body kids t l,
    is_name n1 = true -> is_name n2 = true -> norm n1 = norm n2 ->
    void (norm n1) = false ->
    Attrs at_ attrs -> Content body kids -> Content t l ->
    Content (b "<" ++ n1 ++ at_ ++ b ">" ++ body ++ b "</" ++ n2 ++ b ">" ++ t)
            (Elem (norm n1) attrs kids :: l)
| co_void : forall n1 at_ attrs t l,
    is_name n1 = true -> void (norm n1) = true -> Attrs at_ attrs -> Content t l ->
    Content (b "<" ++ n1 ++ at_ ++ b ">" ++ t) (Elem (norm n1) attrs [] :: l)
| co_decl : forall c text t l, c = "!"%char \/ c = "?"%char -> ~ In ">"%char text ->
    Content t l ->
    Content (b "<" ++ (c :: text) ++ b ">" ++ t) (Decl (c :: text) :: l).
End Content.

Definition XmlContent := Content (fun n => n) (fun _ => false).

Definition html_void (n : bytes) : bool :=
  existsb (beq n) (map b
    [ "area"; "base"; "br"; "col"; "embed"; "hr"; "img"; "input"; "link"; "meta";
      "param"; "source"; "track"; "wbr" ]%string).
Definition HtmlContent := Content to_lower html_void.

(** ** Trees as content *)

Definition chars (s : bytes) : list item := map Char s.

(** A node keeps its leading whitespace, except that the first child of an
    element keeps it only if it contains a line feed. *)
Definition kept (first : bool) (w : bytes) : bytes :=
  if first && negb (existsb (Ascii.eqb LF) w) then [] else w.

(** Whitespace in front of a closing tag: that of the closing parenthesis,
    or else, if the first child is on a new line or the element is a style
    element, that of the element itself. *)
Definition before_close (tag w end_ws : bytes) (kids : list node) : bytes :=
  match end_ws, kids with
  | _ :: _, _ => end_ws
  | [], k :: _ => if existsb (Ascii.eqb LF) (leading_ws k) || beq tag (b "style") then w else []
  | [], [] => if beq tag (b "style") then w else []
  end.

(** Attributes are the attribute nodes directly after the tag; everything
    after them is content. *)
Fixpoint split_attrs (l : list node) : list (bytes * bytes) * list node :=
  match l with
  | Attr k (Sym a | Num a | Str a | Raw a) _ _ :: l' =>
      let '(at_, kids) := split_attrs l' in ((k, a_val a) :: at_, kids)
  | _ => ([], l)
  end.

Definition starts_decl (tag : bytes) : bool :=
  match tag with c :: _ => Ascii.eqb c "!" || Ascii.eqb c "?" | [] => false end.

Definition starts_bang (tag : bytes) : bool :=
  match tag with c :: _ => Ascii.eqb c "!" | [] => false end.

(** Text of an XML declaration after its tag (items are not separated). *)
Definition decl_part_xml (n : node) : bytes :=
  match n with
  | Attr k (Sym a | Num a | Str a | Raw a) _ _ => b " " ++ k ++ b "=" ++ [DQ] ++ a_val a ++ [DQ]
  | Sym a | Num a => a_val a
  | _ => []
  end.
Definition decl_end_xml (tag : bytes) : bytes :=
  match tag with "?"%char :: _ => b " ?" | _ => [] end.

(** What an XML tree stands for. *)
Section Xml.
Variable norm : bytes -> bytes.

Fixpoint items_xml (first : bool) (n : node) : list item :=
  let w := kept first (leading_ws n) in
  chars w ++
  match n with
  | Sym a | Num a | Str a => chars (a_val a)
  | Lst (Sym a :: rest) _ ew _ _ =>
      let tag := a_val a in
      if starts_decl tag
      then [Decl (tag ++ flat_map decl_part_xml rest ++ decl_end_xml tag)]
      else
        let kids :=
          (fix go (first : bool) (l : list node) : list item :=
             match l with
             | [] => []
             | m :: l' =>
                 if first && is_attribute m then go true l'
                 else items_xml first m ++ go false l'
             end) true rest in
        [Elem (norm tag) (fst (split_attrs rest))
              (kids ++ chars (before_close tag w ew (snd (split_attrs rest))))]
  | _ => []
  end.
End Xml.

(** What an HTML tree stands for: math and svg elements contain XML. *)
Fixpoint items_html (first : bool) (n : node) : list item :=
  let w := kept first (leading_ws n) in
  chars w ++
  match n with
  | Sym a | Num a | Str a => chars (a_val a)
  | Lst (Sym a :: rest) _ ew _ _ =>
      let tag := to_lower (a_val a) in
      if starts_bang tag
      then [Decl (a_val a ++ flat_map (fun n => match n with
                                                | Sym v | Num v => b " " ++ a_val v
                                                | _ => [] end) rest)]
      else if html_void tag then [Elem tag (fst (split_attrs rest)) []]
      else
        let foreign := existsb (beq tag) [b "math"; b "svg"] in
        let kids :=
          (fix go (first : bool) (l : list node) : list item :=
             match l with
             | [] => []
             | m :: l' =>
                 if first && is_attribute m then go true l'
                 else (if foreign then items_xml to_lower first m else items_html first m)
                      ++ go false l'
             end) true rest in
        [Elem tag (fst (split_attrs rest))
              (kids ++ chars (before_close tag w ew (snd (split_attrs rest))))]
  | _ => []
  end.

(** ** Trees whose names and attribute values can be written in markup *)

Definition legal_attrs (l : list (bytes * bytes)) : bool :=
  forallb (fun kv => is_name (fst kv) && plain_value (snd kv)) l.
Definition no_gt (s : bytes) : bool := negb (existsb (Ascii.eqb ">") s).
Definition legal_decl_part (n : node) : bool :=
  match n with
  | Attr k (Sym a | Num a | Str a | Raw a) _ _ => no_gt k && no_gt (a_val a)
  | Sym a | Num a => no_gt (a_val a)
  | _ => true
  end.

Section Legal.
(** [ok tag]: further condition on element names. *)
Variable ok : bytes -> bool.
Fixpoint legal_xml (n : node) : bool :=
  match n with
  | Lst (Sym a :: rest) _ _ _ _ =>
      if starts_decl (a_val a) then no_gt (a_val a) && forallb legal_decl_part rest
      else is_name (a_val a) && ok (a_val a) && legal_attrs (fst (split_attrs rest))
           && forallb legal_xml rest
  | _ => true
  end.
End Legal.

(** Elements whose content is not HTML: written by other formatters. *)
Definition foreign_text (tag : bytes) : bool :=
  existsb (beq tag) (map b [ "pre"; "textarea"; "title"; "style"; "script" ]%string).

Fixpoint legal_html (n : node) : bool :=
  match n with
  | Raw _ => false
  | Lst (Sym a :: rest) _ _ _ _ =>
      let tag := to_lower (a_val a) in
      if starts_bang tag then no_gt (a_val a) && forallb legal_decl_part rest
      else is_name (a_val a) && negb (foreign_text tag) && legal_attrs (fst (split_attrs rest))
           && (if existsb (beq tag) [b "math"; b "svg"]
               then forallb (legal_xml (fun t => negb (html_void (to_lower t)))) rest
               else forallb legal_html rest)
  | _ => true
  end.
