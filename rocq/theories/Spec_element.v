(** * Specification of the text, S-expressions, XML and HTML a tree stands for *)

From Coq Require Import String List Ascii Bool Arith NArith.
From Verif Require Import Text Utf8 Res Ast Spec_markup Spec_css.
Import ListNotations.

(** ** Lists and atoms as they are in the source *)

(** Given how the value of a string and of raw text is written. *)
Section Written.
Variables string raw : bytes -> bytes -> Prop.
Inductive Written : node -> bytes -> Prop :=
| wr_sym a : Written (Sym a) (a_ws a ++ a_val a)
| wr_num a : Written (Num a) (a_ws a ++ a_val a)
| wr_str a s : string (a_val a) s -> Written (Str a) (a_ws a ++ s)
| wr_raw a s : raw (a_val a) s -> Written (Raw a) (a_ws a ++ s)
| wr_attr k v st w s : Written v s -> Written (Attr k v st w) (w ++ b ":" ++ k ++ s)
| wr_list ns st ew es w s : AllWritten ns s -> Written (Lst ns st ew es w) (w ++ b "(" ++ s ++ ew ++ b ")")
with AllWritten : list node -> bytes -> Prop :=
| aw_none : AllWritten [] []
| aw_more n l s t : Written n s -> AllWritten l t -> AllWritten (n :: l) (s ++ t).
End Written.

(** Plain text has the values themselves; S-expressions have them in
    quotation marks, and raw text in a call of [%raw]. *)
Definition TextOf : list node -> bytes -> Prop := AllWritten eq eq.
Definition SexpOf (printable : bytes -> bool) : list node -> bytes -> Prop :=
  AllWritten (quoted printable) (fun v s => exists q, quoted printable v q /\ s = b "(%raw " ++ q ++ b ")").
Definition ShownAs (printable : bytes -> bool) : node -> bytes -> Prop :=
  Written (quoted printable) (quoted printable).

(** ** Elements *)

Definition an_attribute (n : node) : Prop := exists k v st w, n = Attr k v st w.

(** What follows a tag: attributes, then children. *)
Definition comprises (rest attrs kids : list node) : Prop :=
  rest = attrs ++ kids /\ Forall an_attribute attrs /\
  match kids with [] => True | k :: _ => ~ an_attribute k end.

(** The children as they are handed on to another formatter: the first has
    lost its leading whitespace, unless there is a line feed in it. *)
Definition handed_on (kids : list node) : list node :=
  match kids with [] => [] | k :: l => set_ws (kept true (leading_ws k)) k :: l end.

Definition atom_text (n : node) (s : bytes) : Prop :=
  exists a, (n = Sym a \/ n = Num a \/ n = Str a) /\ Escaped s (a_val a).

(** An attribute whose value is an atom, and the site of a value that is none. *)
Definition pair (k v : bytes) : bytes := k ++ b "=" ++ [DQ] ++ v ++ [DQ].
Inductive BadValue : node -> site -> Prop :=
| bad_value k v st w : atomic v = None -> BadValue (Attr k v st w) (node_site v).

(** ** XML *)

Inductive XmlAttribute : node -> bytes -> Prop :=
| xa k v st w a : atomic v = Some a -> XmlAttribute (Attr k v st w) (b " " ++ pair k (a_val a)).

(** What a declaration is made of: words and attributes. *)
Inductive XmlWord : node -> bytes -> Prop :=
| xw_word n a : symbolic n = Some a -> XmlWord n (a_val a)
| xw_attr n s : XmlAttribute n s -> XmlWord n s.
Inductive NoXmlWord : node -> res bytes -> Prop :=
| nxw_attr n st : BadValue n st -> NoXmlWord n (Err (EErr EXmlAttrValue st))
| nxw_other n : symbolic n = None -> ~ an_attribute n -> NoXmlWord n (Err (EErr EXmlDeclNode (node_site n))).

(** The text of a node with leading whitespace [w]. *)
Inductive Xml : bytes -> node -> bytes -> Prop :=
| x_atom w n s : atom_text n s -> Xml w n (w ++ s)
| x_bang w a tag rest ws st ew es w0 : a_val a = "!"%char :: tag -> Forall2 XmlWord rest ws ->
    Xml w (Lst (Sym a :: rest) st ew es w0) (w ++ b "<!" ++ tag ++ concat ws ++ b ">")
| x_query w a tag rest ws st ew es w0 : a_val a = "?"%char :: tag -> Forall2 XmlWord rest ws ->
    Xml w (Lst (Sym a :: rest) st ew es w0) (w ++ b "<?" ++ tag ++ concat ws ++ b " ?>")
| x_element w a c tag rest attrs kids ats s st ew es w0 : a_val a = c :: tag ->
    c <> "!"%char -> c <> "?"%char -> comprises rest attrs kids ->
    Forall2 XmlAttribute attrs ats -> XmlAll true kids s ->
    Xml w (Lst (Sym a :: rest) st ew es w0)
      (w ++ b "<" ++ a_val a ++ concat ats ++ b ">" ++ s ++
       before_close (a_val a) w ew kids ++ b "</" ++ a_val a ++ b ">")
with XmlAll : bool -> list node -> bytes -> Prop :=
| xs_nil first : XmlAll first [] []
| xs_cons (first : bool) n l s t : Xml (kept first (leading_ws n)) n s -> XmlAll false l t ->
    XmlAll first (n :: l) (s ++ t).

(** What stops it. *)
Inductive NoXml : node -> res bytes -> Prop :=
| nx_raw a : NoXml (Raw a) (Err (EErr EXmlRaw (a_site a)))
| nx_attribute k v st w : NoXml (Attr k v st w) (Err (EErr EXmlRaw st))
| nx_empty st ew es w : NoXml (Lst [] st ew es w) (Err (EErr EXmlEmptyList st))
| nx_head hd l st ew es w : (forall a, hd <> Sym a) ->
    NoXml (Lst (hd :: l) st ew es w) (Err (EErr EXmlHeadNotSymbol (node_site hd)))
| nx_no_name a l st ew es w : a_val a = [] -> NoXml (Lst (Sym a :: l) st ew es w) (Panic PIndex)
| nx_declaration a c tag l x r ws q st ew es w : a_val a = c :: tag -> c = "!"%char \/ c = "?"%char ->
    Forall2 XmlWord l ws -> NoXmlWord x q -> NoXml (Lst (Sym a :: l ++ x :: r) st ew es w) q
| nx_value a c tag l x r ats site st ew es w : a_val a = c :: tag -> c <> "!"%char -> c <> "?"%char ->
    Forall2 XmlAttribute l ats -> BadValue x site ->
    NoXml (Lst (Sym a :: l ++ x :: r) st ew es w) (Err (EErr EXmlAttrValue site))
| nx_child a c tag rest attrs kids ats l x r s q st ew es w : a_val a = c :: tag ->
    c <> "!"%char -> c <> "?"%char -> comprises rest attrs kids ->
    Forall2 XmlAttribute attrs ats -> kids = l ++ x :: r -> XmlAll true l s -> NoXml x q ->
    NoXml (Lst (Sym a :: rest) st ew es w) q.
Inductive NoXmlAll (l : list node) (q : res bytes) : Prop :=
| nxs x n r s : l = x ++ n :: r -> XmlAll false x s -> NoXml n q -> NoXmlAll l q.

(** ** HTML *)

Section Html.
Variable printable : bytes -> bool.
(** The text of each source. *)
Variable sources : nat -> bytes.

Definition capitals : bytes := b "ABCDEFGHIJKLMNOPQRSTUVWXYZ".
Definition small_letters : bytes := b "abcdefghijklmnopqrstuvwxyz".
(** [t] is [s] in lower case. *)
Definition in_lower_case (s t : bytes) : Prop :=
  Forall2 (fun c d => (exists i, nth_error capitals i = Some c /\ nth_error small_letters i = Some d) \/
                      (~ In c capitals /\ d = c)) s t.

Definition voids : list bytes := map b
  ["area"; "base"; "br"; "col"; "embed"; "hr"; "img"; "input"; "link"; "meta"; "param"; "source"; "track";
   "wbr"]%string.

(** An attribute keeps its own whitespace, if it has any. *)
Inductive HtmlAttribute : node -> bytes -> Prop :=
| ha_spaced k v st w a : w <> [] -> atomic v = Some a -> HtmlAttribute (Attr k v st w) (w ++ pair k (a_val a))
| ha_bare k v st a : atomic v = Some a -> HtmlAttribute (Attr k v st []) (b " " ++ pair k (a_val a)).
Inductive HtmlWord : node -> bytes -> Prop :=
| hw_word n a : symbolic n = Some a -> HtmlWord n (b " " ++ a_val a).

(** Between two places of a text that are not inside a character. *)
Definition between_characters (s : bytes) (i : nat) : Prop :=
  i <= length s /\ forall c, nth_error s i = Some c -> is_cont c = false.
Definition lies (s : bytes) (i j : nat) (t : bytes) : Prop :=
  between_characters s i /\ between_characters s j /\
  exists x y, s = x ++ t ++ y /\ length x = i /\ length x + length t = j.

(** Where the text of a [pre] element with the first child [k] starts: in
    front of the leading whitespace, but after a space. *)
Inductive starts_at (k : node) : nat -> Prop :=
| sa_space r i : leading_ws k = b " " ++ r -> s_off (node_site k) = i + length (leading_ws k) ->
    starts_at k (S i)
| sa_other i : (forall r, leading_ws k <> b " " ++ r) -> s_off (node_site k) = i + length (leading_ws k) ->
    starts_at k i.

(** The elements whose content is not HTML, by their names in lower case. *)
Definition other_content : list bytes := map b
  ["pre"; "textarea"; "title"; "style"; "script"; "math"; "svg"]%string.
Definition one_string (kids : list node) : Prop := exists a l, kids = Str a :: l.

(** [Inner tag kids ew es q]: the content of such an element, where [ew] is
    the whitespace before the closing parenthesis, which is at [es]. *)
Inductive Inner : bytes -> list node -> bytes -> site -> res bytes -> Prop :=
| in_pre_none ew es : Inner (b "pre") [] ew es (Ok ew)
| in_pre k l ew es i s : s_src (node_site k) = s_src es -> starts_at k i ->
    lies (sources (s_src es)) i (s_off es) s -> Inner (b "pre") (k :: l) ew es (Ok s)
| in_pre_foreign k l ew es : s_src (node_site k) <> s_src es ->
    Inner (b "pre") (k :: l) ew es (Panic PExplicit)
| in_pre_before k l ew es : s_src (node_site k) = s_src es ->
    s_off (node_site k) < length (leading_ws k) -> Inner (b "pre") (k :: l) ew es (Panic POverflow)
| in_pre_outside k l ew es i : s_src (node_site k) = s_src es -> starts_at k i ->
    (forall s, ~ lies (sources (s_src es)) i (s_off es) s) ->
    Inner (b "pre") (k :: l) ew es (Panic PIndex)
| in_text tag kids ew es s : In tag [b "textarea"; b "title"] -> TextOf (handed_on kids) s ->
    Inner tag kids ew es (Ok s)
| in_style_string a ew es : Inner (b "style") [Str a] ew es (Ok (a_val a))
| in_style_more a k l ew es : Inner (b "style") (Str a :: k :: l) ew es (Err (EErr EHtmlStyle (a_site a)))
| in_style kids ew es s : ~ one_string kids -> Rules printable (handed_on kids) s ->
    Inner (b "style") kids ew es (Ok ([LF] ++ s))
| in_style_fault kids ew es q : ~ one_string kids -> NoSheet printable (handed_on kids) q ->
    Inner (b "style") kids ew es q
| in_script kids ew es s : SexpOf printable (handed_on kids) s -> Inner (b "script") kids ew es (Ok s)
| in_xml tag kids ew es s : In tag [b "math"; b "svg"] -> XmlAll false (handed_on kids) s ->
    Inner tag kids ew es (Ok s)
| in_xml_fault tag kids ew es q : In tag [b "math"; b "svg"] -> NoXmlAll (handed_on kids) q ->
    Inner tag kids ew es q.

Inductive Html : bytes -> node -> bytes -> Prop :=
| h_atom w n s : atom_text n s -> Html w n (w ++ s)
| h_raw w a : Html w (Raw a) (w ++ a_val a)
| h_bang w a tag rest ws st ew es w0 : a_val a = "!"%char :: tag -> Forall2 HtmlWord rest ws ->
    Html w (Lst (Sym a :: rest) st ew es w0) (w ++ b "<!" ++ tag ++ concat ws ++ b ">")
| h_void w a c tag attrs ats st ew es w0 : a_val a = c :: tag -> c <> "!"%char ->
    In (to_lower (a_val a)) voids -> Forall2 HtmlAttribute attrs ats ->
    Html w (Lst (Sym a :: attrs) st ew es w0) (w ++ b "<" ++ a_val a ++ concat ats ++ b ">")
| h_other w a c tag rest attrs kids ats s st ew es w0 : a_val a = c :: tag -> c <> "!"%char ->
    comprises rest attrs kids -> Forall2 HtmlAttribute attrs ats ->
    Inner (to_lower (a_val a)) kids ew es (Ok s) ->
    Html w (Lst (Sym a :: rest) st ew es w0)
      (w ++ b "<" ++ a_val a ++ concat ats ++ b ">" ++ s ++
       before_close (to_lower (a_val a)) w ew kids ++ b "</" ++ to_lower (a_val a) ++ b ">")
| h_element w a c tag rest attrs kids ats s st ew es w0 : a_val a = c :: tag -> c <> "!"%char ->
    ~ In (to_lower (a_val a)) voids -> ~ In (to_lower (a_val a)) other_content ->
    comprises rest attrs kids -> Forall2 HtmlAttribute attrs ats -> HtmlAll true kids s ->
    Html w (Lst (Sym a :: rest) st ew es w0)
      (w ++ b "<" ++ a_val a ++ concat ats ++ b ">" ++ s ++
       before_close (to_lower (a_val a)) w ew kids ++ b "</" ++ to_lower (a_val a) ++ b ">")
with HtmlAll : bool -> list node -> bytes -> Prop :=
| hs_nil first : HtmlAll first [] []
| hs_cons (first : bool) n l s t : Html (kept first (leading_ws n)) n s -> HtmlAll false l t ->
    HtmlAll first (n :: l) (s ++ t).

Inductive NoHtml : node -> res bytes -> Prop :=
| nh_attribute k v st w : NoHtml (Attr k v st w) (Err (EErr EHtmlAttribute st))
| nh_empty st ew es w : NoHtml (Lst [] st ew es w) (Err (EErr EHtmlEmptyList st))
| nh_head hd l st ew es w : (forall a, hd <> Sym a) ->
    NoHtml (Lst (hd :: l) st ew es w) (Err (EErr EHtmlHeadNotSymbol (node_site hd)))
| nh_no_name a l st ew es w : a_val a = [] -> NoHtml (Lst (Sym a :: l) st ew es w) (Panic PIndex)
| nh_declaration a tag l x r ws st ew es w : a_val a = "!"%char :: tag ->
    Forall2 HtmlWord l ws -> symbolic x = None ->
    NoHtml (Lst (Sym a :: l ++ x :: r) st ew es w) (Err (EErr EHtmlDeclNode (node_site x)))
| nh_value a c tag l x r ats site st ew es w : a_val a = c :: tag -> c <> "!"%char ->
    Forall2 HtmlAttribute l ats -> BadValue x site ->
    NoHtml (Lst (Sym a :: l ++ x :: r) st ew es w) (Err (EErr EHtmlAttrValue site))
| nh_void a c tag attrs x r ats st ew es w : a_val a = c :: tag -> c <> "!"%char ->
    In (to_lower (a_val a)) voids -> Forall2 HtmlAttribute attrs ats -> ~ an_attribute x ->
    NoHtml (Lst (Sym a :: attrs ++ x :: r) st ew es w) (Err (EErr EHtmlVoidChildren (node_site x)))
| nh_other a c tag rest attrs kids ats q st ew es w : a_val a = c :: tag -> c <> "!"%char ->
    comprises rest attrs kids -> Forall2 HtmlAttribute attrs ats ->
    Inner (to_lower (a_val a)) kids ew es q -> (forall s, q <> Ok s) ->
    NoHtml (Lst (Sym a :: rest) st ew es w) q
| nh_child a c tag rest attrs kids ats l x r s q st ew es w : a_val a = c :: tag -> c <> "!"%char ->
    ~ In (to_lower (a_val a)) voids -> ~ In (to_lower (a_val a)) other_content ->
    comprises rest attrs kids -> Forall2 HtmlAttribute attrs ats ->
    kids = l ++ x :: r -> HtmlAll true l s -> NoHtml x q ->
    NoHtml (Lst (Sym a :: rest) st ew es w) q.
Inductive NoHtmlAll (l : list node) (q : res bytes) : Prop :=
| nhs x n r s : l = x ++ n :: r -> HtmlAll false x s -> NoHtml n q -> NoHtmlAll l q.
End Html.

(** ** The output for a target *)

Inductive WrittenAs (printable : bytes -> bool) (sources : nat -> bytes) (t : list node) : bytes -> res bytes -> Prop :=
| wa_text s : TextOf t s -> WrittenAs printable sources t (b "text") (Ok s)
| wa_sexp s : SexpOf printable t s -> WrittenAs printable sources t (b "sexp") (Ok s)
| wa_html s : HtmlAll printable sources false t s -> WrittenAs printable sources t (b "html") (Ok s)
| wa_no_html q : NoHtmlAll printable sources t q -> WrittenAs printable sources t (b "html") q
| wa_xml s : XmlAll false t s -> WrittenAs printable sources t (b "xml") (Ok s)
| wa_no_xml q : NoXmlAll t q -> WrittenAs printable sources t (b "xml") q
| wa_css s : Rules printable t s -> WrittenAs printable sources t (b "css") (Ok s)
| wa_no_css q : NoSheet printable t q -> WrittenAs printable sources t (b "css") q.
