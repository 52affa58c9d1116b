(** * Model of the output formatters, [crates/seam/src/assemble/*.rs] and
      [Display for ParseNode] *)

From Coq Require Import String List Ascii Bool Arith.
From Verif Require Import Text Utf8 Res Ast Debug.
Import ListNotations.

(** [assemble/mod.rs:116-132] [escape_xml]. *)
Definition escape_xml_byte (c : ascii) : bytes :=
  if ch c "<" then b "&lt;"
  else if ch c ">" then b "&gt;"
  else if ch c DQ then b "&quot;"
  else if ch c "'" then b "&apos;"
  else if ch c "&" then b "&amp;"
  else [c].
Definition escape_xml (s : bytes) : bytes := flat_map escape_xml_byte s.

(** Formatting options of a node list: the [generate] methods write each node
    in order and stop at the first error
    ([xml.rs:157-163], [html.rs:305-311], [text.rs:67-73], [sexp.rs:77-83]). *)
Fixpoint concat_res (l : list (res bytes)) : res bytes :=
  match l with
  | [] => Ok []
  | x :: l' => let* y := x in let* ys := concat_res l' in Ok (y ++ ys)
  end.

(** [text.rs:34-62] [PlainTextFormatter::generate_node], [67-73] [generate].
    It never fails, so the result is plain text. *)
Fixpoint text_node (n : node) : bytes :=
  match n with
  | Sym a | Num a | Str a | Raw a => a_ws a ++ a_val a
  | Lst nodes _ ew _ ws => ws ++ b "(" ++ flat_map text_node nodes ++ ew ++ b ")"
  | Attr k v _ ws => ws ++ b ":" ++ k ++ text_node v
  end.
Definition text_gen (t : tree) : bytes := flat_map text_node t.

Section Quote.
(** See [Debug.v]. *)
Variable printable : bytes -> bool.
Notation debug_str := (debug_str printable).

(** [parser.rs:641-660] [Display for ParseNode]. *)
Fixpoint display_node (n : node) : bytes :=
  match n with
  | Sym a | Num a => a_ws a ++ a_val a
  | Str a | Raw a => a_ws a ++ debug_str (a_val a)
  | Attr k v _ ws => ws ++ b ":" ++ k ++ display_node v
  | Lst nodes _ ew _ ws => ws ++ b "(" ++ flat_map display_node nodes ++ ew ++ b ")"
  end.

(** [sexp.rs:31-67] [SExpFormatter::generate_node], [77-83] [generate]. *)
Fixpoint sexp_node (n : node) : bytes :=
  match n with
  | Sym a | Num a => a_ws a ++ a_val a
  | Str a => a_ws a ++ debug_str (a_val a)
  | Raw a => a_ws a ++ b "(%raw " ++ debug_str (a_val a) ++ b ")"
  | Lst nodes _ ew _ ws => ws ++ b "(" ++ flat_map sexp_node nodes ++ ew ++ b ")"
  | Attr k v _ ws => ws ++ b ":" ++ k ++ sexp_node v
  end.
Definition sexp_gen (t : tree) : bytes := flat_map sexp_node t.

(** ** CSS *)

Definition mem (x : bytes) (l : list bytes) : bool := existsb (beq x) l.

(** [css.rs:21-33]. *)
Definition css_functions : list bytes := map b
  [ "attr"; "blur"; "brightness"; "calc"; "circle"; "color"; "contrast";
    "counter"; "counters"; "cubic-bezier"; "drop-shadow"; "ellipse"; "format";
    "grayscale"; "hsl"; "hsla"; "hue-rotate"; "hwb"; "image"; "inset";
    "invert"; "lab"; "lch"; "linear-gradient"; "matrix"; "matrix3d";
    "opacity"; "perspective"; "polygon"; "radial-gradient";
    "repeating-linear-gradient"; "repeating-radial-gradient";
    "rgb"; "rgba"; "rotate"; "rotate3d"; "rotateX";
    "rotateY"; "rotateZ"; "saturate"; "sepia"; "scale"; "scale3d";
    "scaleX"; "scaleY"; "scaleZ"; "skew"; "skewX"; "skewY"; "symbols";
    "translate"; "translate3d"; "translateX"; "translateY"; "translateZ";
    "url"; "var"; "supports" ]%string.
(** [css.rs:37]. *)
Definition css_comma_delim : list bytes := map b [ "rgba"; "hsla" ]%string.
(** [css.rs:42-47]. *)
Definition css_special_selectors : list bytes := map b
  [ "@charset"; "@counter-style"; "@document"; "@font-face";
    "@font-feature-values"; "@import"; "@keyframes"; "@media"; "@namespace";
    "@page"; "@property"; "@supports" ]%string.
(** [css.rs:50-54]. *)
Definition css_oneline_rules : list bytes := map b [ "@charset"; "@import"; "@namespace" ]%string.
(** [css.rs:57-61]. *)
Definition css_non_nested : list bytes := map b [ "@font-face"; "@page"; "@property" ]%string.
(** [css.rs:65]. *)
Definition binary_operators : list bytes := map b [ "+"; "-"; "*"; "/" ]%string.

(** [css.rs:80-95]: combining the converted head and arguments. *)
Definition css_apply (head : bytes) (tail : list bytes) : bytes :=
  let delim := if mem head css_comma_delim then b ", " else b " " in
  let args := trim (join delim tail) in
  if mem head css_functions then head ++ b "(" ++ args ++ b ")"
  else if mem head binary_operators
       then b "(" ++ join (b " " ++ head ++ b " ") tail ++ b ")"
  else head ++ b " " ++ args.

(** [css.rs:67-127] [convert_value] and [css_value] (which ignores the
    property name). *)
Fixpoint css_value (n : node) : res bytes :=
  match n with
  | Lst [] _ _ _ _ => Ok []
  | Lst (hd :: tl) _ _ _ _ =>
      let* head := css_value hd in
      let* tail := (fix go (l : list node) : res (list bytes) :=
                      match l with
                      | [] => Ok []
                      | x :: l' => let* y := css_value x in let* ys := go l' in Ok (y :: ys)
                      end) tl in
      Ok (css_apply head tail)
  | Num a | Sym a | Str a =>
      Ok (if has_white (a_val a) then debug_str (a_val a) else a_val a)
  | Raw a => Ok (a_val a)
  | Attr _ _ s _ => Err (EErr ECssAttrInValue s)
  end.

(** [css.rs:150-163]: one-line at-rules; arguments after the selector. *)
Fixpoint css_oneline (args : list node) : res bytes :=
  match args with
  | [] => Ok []
  | arg :: args' =>
      let* x := match arg with
                | Attr k v _ _ => let* y := css_value v in Ok (b "(" ++ k ++ b ": " ++ y ++ b ") ")
                | _ => let* y := css_value arg in Ok (y ++ b " ")
                end in
      let* rest := css_oneline args' in Ok (x ++ rest)
  end.

(** [css.rs:198-200]: the selectors and what follows them ([iter.skip(prop_i
    - 1)], where [prop_i] counts the nodes inspected by [take_while]: one
    more than the selectors if some node is not atomic, otherwise exactly the
    selectors, so that the last selector is visited again). *)
Fixpoint take_atoms (l : list node) : list atom :=
  match l with
  | n :: l' => match atomic n with Some a => a :: take_atoms l' | None => [] end
  | [] => []
  end.
Definition prop_index (l : list node) : nat :=
  let k := length (take_atoms l) in
  if k <? length l then S k else k.

(** [css.rs:230-238]: the property lines. *)
Fixpoint css_props (l : list node) : res bytes :=
  match l with
  | [] => Ok []
  | Attr k v _ _ :: l' =>
      let* y := css_value v in
      let* rest := css_props l' in
      Ok (b "  " ++ k ++ b ": " ++ y ++ b ";" ++ [LF] ++ rest)
  | n :: _ => Err (EErr ECssNotProperty (node_site n))
  end.

Definition selector_text (l : list atom) : bytes := flat_map (fun a => a_val a ++ b " ") l.

(** [css.rs:194-241] [generate_css_rule] on the elements of the list node
    [n] (with [css.rs:135-192] [generate_special_selector] inlined, because
    it calls back for nested rules). *)
Fixpoint css_rule (n : node) : res bytes :=
  match n with
  | Lst [] _ _ _ _ => Panic PUnwrap
  | Lst ((h :: args) as nodes) _ _ _ _ =>
      match atomic h with
      | None => Panic PUnwrap
      | Some head =>
          let sel := a_val head in
          if mem sel css_special_selectors && negb (mem sel css_non_nested) then
            if mem sel css_oneline_rules then
              let* body := css_oneline args in
              Ok (sel ++ b " " ++ body ++ b ";" ++ [LF])
            else
              let* body :=
                (fix go (rules : bool) (l : list node) : res bytes :=
                   match l with
                   | [] => Ok []
                   | arg :: l' =>
                       match arg with
                       | Attr k v s _ =>
                           if rules then Err (EErr ECssNotRule s) else
                           let* y := css_value v in
                           let* rest := go rules l' in
                           Ok (b "(" ++ k ++ b ": " ++ y ++ b ") " ++ rest)
                       | Lst _ _ _ _ ws =>
                           let* y := css_rule arg in
                           let* rest := go true l' in
                           Ok ((if rules then [] else b "{" ++ [LF]) ++ ws ++ y ++ rest)
                       | _ =>
                           if rules then Err (EErr ECssNotRule (node_site arg)) else
                           let* y := css_value arg in
                           let* rest := go rules l' in
                           Ok (y ++ b " " ++ rest)
                       end
                   end) false args in
              Ok (sel ++ b " " ++ body ++ b "}")
          else
            let* body := css_props (skipn (prop_index nodes - 1) nodes) in
            Ok (selector_text (take_atoms nodes) ++ b "{" ++ [LF] ++ body ++ b "}")
      end
  | _ => Panic PUnreachable
  end.

(** [css.rs:253-283] [CSSFormatter::generate]. *)
Fixpoint css_gen (t : list node) : res bytes :=
  match t with
  | [] => Ok []
  | n :: t' =>
      match n with
      | Lst _ _ _ _ ws =>
          let* x := css_rule n in
          let* rest := css_gen t' in
          Ok (ws ++ x ++ rest)
      | _ => Err (EErr ECssSpecialBad (node_site n))
      end
  end.

(** [css.rs:18], [244-251] [document]. *)
Definition css_document (t : tree) : res bytes :=
  match t with [] => Ok [LF] | _ => css_gen t end.

(** ** XML *)

(** [xml.rs:166-177] [display_attribute]. *)
Definition xml_attribute (n : node) : res bytes :=
  match n with
  | Attr k v _ _ =>
      match atomic v with
      | Some a => Ok (k ++ b "=" ++ [DQ] ++ a_val a ++ [DQ])
      | None => Err (EErr EXmlAttrValue (node_site v))
      end
  | _ => Panic PExplicit
  end.

(** [xml.rs:86-90]: the attributes at the front of a tag's content. *)
Fixpoint xml_attributes (l : list node) : res bytes :=
  match l with
  | (Attr _ _ _ _ as a) :: l' =>
      let* x := xml_attribute a in
      let* rest := xml_attributes l' in
      Ok (b " " ++ x ++ rest)
  | _ => Ok []
  end.
Fixpoint drop_attributes (l : list node) : list node :=
  match l with
  | Attr _ _ _ _ :: l' => drop_attributes l'
  | _ => l
  end.

(** [xml.rs:66-77]: content of a declaration. *)
Fixpoint xml_declaration (l : list node) : res bytes :=
  match l with
  | [] => Ok []
  | n :: l' =>
      match symbolic n with
      | Some a => let* rest := xml_declaration l' in Ok (a_val a ++ rest)
      | None =>
          match n with
          | Attr _ _ _ _ =>
              let* x := xml_attribute n in
              let* rest := xml_declaration l' in
              Ok (b " " ++ x ++ rest)
          | _ => Err (EErr EXmlDeclNode (node_site n))
          end
      end
  end.

(** [xml.rs:96-98]: does the first child start on a new line? *)
Definition on_next_line (l : list node) : bool :=
  match l with [] => false | n :: _ => has LF (leading_ws n) end.

(** [xml.rs:97-102], [html.rs:138-143]: the children with the first one's
    whitespace suppressed unless it contains a newline. *)
Definition adjust_first (l : list node) : list node :=
  match l with
  | n :: l' => (if has LF (leading_ws n) then n else set_ws [] n) :: l'
  | [] => []
  end.

(** [xml.rs:109-115], [html.rs:209-215]: whitespace in front of the closing
    tag. *)
Definition closing_ws (tag ws end_ws : bytes) (next_line : bool) : bytes :=
  match end_ws with
  | [] => if next_line || beq tag (b "style") then ws else []
  | _ => end_ws
  end.

(** [xml.rs:29-124] [generate_xml_node].  The node's leading whitespace is a
    separate argument [ws], so that clearing it on the first child ([97-102])
    needs no modified copy of the child.  The inner loop runs over the
    elements after the head: with [front] set it skips the attributes and
    then treats the first child specially. *)
Fixpoint xml_node_ws (ws : bytes) (n : node) {struct n} : res bytes :=
  match n with
  | Sym a | Num a | Str a => Ok (ws ++ escape_xml (a_val a))
  | Lst [] st _ _ _ => Err (EErr EXmlEmptyList st)
  | Lst (hd :: rest) _ ew _ _ =>
      match hd with
      | Sym a =>
          let tag := a_val a in
          match tag with
          | [] => Panic PIndex
          | front :: _ =>
              if ch front "!" || ch front "?" then
                let* body := xml_declaration rest in
                Ok (ws ++ b "<" ++ tag ++ body ++
                    (if ch front "?" then b " ?>" else b ">"))
              else
                let* attrs := xml_attributes rest in
                let* kids :=
                  (fix go (front : bool) (l : list node) : res bytes :=
                     match l with
                     | [] => Ok []
                     | m :: l' =>
                         if front && is_attribute m then go true l' else
                         let w := leading_ws m in
                         let* x := xml_node_ws (if front && negb (has LF w) then [] else w) m in
                         let* xs := go false l' in
                         Ok (x ++ xs)
                     end) true rest in
                Ok (ws ++ b "<" ++ tag ++ attrs ++ b ">" ++ kids ++
                    closing_ws tag ws ew (on_next_line (drop_attributes rest)) ++
                    b "</" ++ tag ++ b ">")
          end
      | _ => Err (EErr EXmlHeadNotSymbol (node_site hd))
      end
  | _ => Err (EErr EXmlRaw (node_site n))
  end.
Definition xml_node (n : node) : res bytes := xml_node_ws (leading_ws n) n.

(** [xml.rs:157-163] [generate]. *)
Definition xml_gen (t : tree) : res bytes := concat_res (map xml_node t).

(** [xml.rs:127-128] [DEFAULT]. *)
Definition xml_default : bytes :=
  b "<?xml version=" ++ [DQ] ++ b "1.0" ++ [DQ] ++ b " encoding=" ++ [DQ] ++ b "UTF-8"
    ++ [DQ] ++ b " ?>" ++ [LF].

(** [xml.rs:136-146]: is there a declaration at the front?  ([to_lowercase]
    as ASCII lowering: see [search_node] in Ast.v.) *)
Definition has_xml_declaration (t : tree) : bool :=
  match t with
  | Lst (Sym a :: _) _ _ _ _ :: _ => beq (to_lower (a_val a)) (b "?xml")
  | _ => false
  end.

(** [xml.rs:131-155] [document]. *)
Definition xml_document (t : tree) : res bytes :=
  match t with
  | [] => Ok xml_default
  | _ => let* body := xml_gen t in
         Ok ((if has_xml_declaration t then [] else xml_default) ++ body)
  end.

(** ** HTML *)

(** [html.rs:237-252]; [binary_search] on this sorted array is membership. *)
Definition void_elements : list bytes := map b
  [ "area"; "base"; "br"; "col"; "embed"; "hr"; "img"; "input"; "link"; "meta";
    "param"; "source"; "track"; "wbr" ]%string.

(** [html.rs:79-88]: content of a declaration. *)
Fixpoint html_declaration (l : list node) : res bytes :=
  match l with
  | [] => Ok []
  | n :: l' =>
      match symbolic n with
      | Some a => let* rest := html_declaration l' in Ok (b " " ++ a_val a ++ rest)
      | None => Err (EErr EHtmlDeclNode (node_site n))
      end
  end.

(** [html.rs:93-107]: attributes. *)
Fixpoint html_attributes (l : list node) : res bytes :=
  match l with
  | Attr k v _ ws :: l' =>
      match atomic v with
      | Some a =>
          let* rest := html_attributes l' in
          Ok ((match ws with [] => b " " | _ => ws end) ++
              k ++ b "=" ++ [DQ] ++ a_val a ++ [DQ] ++ rest)
      | None => Err (EErr EHtmlAttrValue (node_site v))
      end
  | _ => Ok []
  end.

(** Text of each source buffer (by the number in [s_src]). *)
Variable sources : nat -> bytes.

(** Indexing a string slice, [&s\[i..j\]]. *)
Definition is_boundary (s : bytes) (i : nat) : bool :=
  match skipn i s with [] => i <=? length s | c :: _ => negb (is_cont c) end.
Definition str_slice (s : bytes) (i j : nat) : res bytes :=
  if (i <=? j) && (j <=? length s) && is_boundary s i && is_boundary s j
  then Ok (slice i j s) else Panic PIndex.

(** [html.rs:321-334] [raw_text].  [ptr::eq] on the two [source_code] slices
    is equality of buffer numbers. *)
Definition raw_text (start : option node) (end_ws : bytes) (end_site : site) : res bytes :=
  match start with
  | None => Ok end_ws
  | Some n =>
      let st := node_site n in
      let ws := leading_ws n in
      if negb (s_src st =? s_src end_site) then Panic PExplicit
      else if s_off st <? length ws then Panic POverflow
      else str_slice (sources (s_src end_site))
             (s_off st - length ws + (if starts_with (b " ") ws then 1 else 0))
             (s_off end_site)
  end.

(** [html.rs:37-224] [generate_html_node]; the leading whitespace is a
    separate argument, as in [xml_node_ws]. *)
Fixpoint html_node_ws (ws : bytes) (n : node) {struct n} : res bytes :=
  match n with
  | Sym a | Num a | Str a => Ok (ws ++ escape_xml (a_val a))
  | Raw a => Ok (ws ++ a_val a)
  | Lst [] st _ _ _ => Err (EErr EHtmlEmptyList st)
  | Lst (hd :: rest) _ ew es _ =>
      match hd with
      | Sym a =>
          let tag := to_lower (a_val a) in
          match tag with
          | [] => Panic PIndex
          | front :: _ =>
              if ch front "!" then
                let* body := html_declaration rest in
                Ok (ws ++ b "<" ++ a_val a ++ body ++ b ">")
              else
                let* attrs := html_attributes rest in
                let open := ws ++ b "<" ++ a_val a ++ attrs ++ b ">" in
                let kids := drop_attributes rest in
                if mem tag void_elements then
                  match kids with
                  | [] => Ok open
                  | k :: _ => Err (EErr EHtmlVoidChildren (node_site k))
                  end
                else
                  let* body :=
                    if beq tag (b "pre") then
                      raw_text (match kids with [] => None | k :: _ => Some k end) ew es
                    else if beq tag (b "textarea") || beq tag (b "title") then
                      Ok (text_gen (adjust_first kids))
                    else if beq tag (b "style") then
                      match kids with
                      | Str s :: more =>
                          match more with
                          | [] => Ok (a_val s)
                          | _ => Err (EErr EHtmlStyle (a_site s))
                          end
                      | _ => let* css := css_gen (adjust_first kids) in Ok (LF :: css)
                      end
                    else if beq tag (b "script") then
                      Ok (sexp_gen (adjust_first kids))
                    else if beq tag (b "math") || beq tag (b "svg") then
                      xml_gen (adjust_first kids)
                    else
                      (fix go (front : bool) (l : list node) : res bytes :=
                         match l with
                         | [] => Ok []
                         | m :: l' =>
                             if front && is_attribute m then go true l' else
                             let w := leading_ws m in
                             let* x := html_node_ws (if front && negb (has LF w) then [] else w) m in
                             let* xs := go false l' in
                             Ok (x ++ xs)
                         end) true rest in
                  Ok (open ++ body ++ closing_ws tag ws ew (on_next_line kids) ++
                      b "</" ++ tag ++ b ">")
          end
      | _ => Err (EErr EHtmlHeadNotSymbol (node_site hd))
      end
  | Attr _ _ s _ => Err (EErr EHtmlAttribute s)
  end.
Definition html_node (n : node) : res bytes := html_node_ws (leading_ws n) n.

(** [html.rs:305-311] [generate]. *)
Definition html_gen (t : tree) : res bytes := concat_res (map html_node t).

(** [html.rs:227-234] [DEFAULT] (the [\] at the end of each source line
    removes the following indentation). *)
Definition html_default : bytes :=
  b "<!DOCTYPE html>" ++ [LF] ++ b "<html>" ++ [LF] ++ b "<head></head>" ++ [LF] ++
  b "<body>" ++ [LF] ++ b "<!-- Generated by SEAM (empty file) -->" ++ [LF] ++
  b "</body>" ++ [LF] ++ b "</html>" ++ [LF].

(** [html.rs:301]: drop one final newline. *)
Definition pop_newline (s : bytes) : bytes :=
  match rev s with
  | c :: r => if ch c LF then rev r else s
  | [] => s
  end.

(** [html.rs:255-303] [document]. *)
Definition html_document (t : tree) : res bytes :=
  match t with
  | [] => Ok html_default
  | _ =>
      let find v level := is_some (search_tree SListHead (b v) true level t) in
      let doctype := find "!doctype"%string 1 in
      let html := find "html"%string 1 in
      let head := find "head"%string 2 in
      let body := find "body"%string 2 in
      let opening :=
        if doctype then [] else
        b "<!DOCTYPE html>" ++ [LF] ++
        (if html then [] else
         b "<html>" ++ [LF] ++
         (if head then [] else b "<head></head>" ++ [LF]) ++
         (if body then [] else b "<body>" ++ [LF])) in
      let closing :=
        if doctype then [] else
        if html then [] else
        (if body then [] else b "</body>" ++ [LF]) ++ b "</html>" ++ [LF] in
      let* content := html_gen t in
      Ok (pop_newline (opening ++ content ++ [LF] ++ closing))
  end.
End Quote.
