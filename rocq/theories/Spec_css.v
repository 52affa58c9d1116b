(** * Specification of style sheets: the CSS a tree stands for *)

From Coq Require Import String List Ascii Bool Arith NArith.
From Verif Require Import Text Utf8 Res Ast Spec_print.
Import ListNotations.

(** ** Text *)

(** The characters with the Unicode property White_Space, by code point. *)
Definition white_point (n : N) : Prop :=
  ((9 <= n <= 13) \/ n = 32 \/ n = 133 \/ n = 160 \/ n = 5760 \/ (8192 <= n <= 8202) \/
   n = 8232 \/ n = 8233 \/ n = 8239 \/ n = 8287 \/ n = 12288)%N.
Definition white (w : bytes) : Prop := exists n, white_point n /\ w = encode n.
Inductive all_white : bytes -> Prop :=
| aw_nil : all_white []
| aw_cons w s : white w -> all_white s -> all_white (w ++ s).
Definition contains_white (s : bytes) : Prop := exists x w y, s = x ++ w ++ y /\ white w.

(** White space removed at both ends. *)
Definition trimmed (s t : bytes) : Prop :=
  (exists x y, s = x ++ t ++ y /\ all_white x /\ all_white y) /\
  (forall w r, white w -> t <> w ++ r) /\ (forall w r, white w -> t <> r ++ w).

Definition hex_digits : bytes := b "0123456789abcdef".
Inductive hexadecimal : N -> bytes -> Prop :=
| hx_digit d c : nth_error hex_digits d = Some c -> hexadecimal (N.of_nat d) [c]
| hx_more n d t c : (0 < n)%N -> hexadecimal n t -> nth_error hex_digits d = Some c ->
    hexadecimal (n * 16 + N.of_nat d) (t ++ [c]).

Section Css.
(** Which characters outside ASCII can be shown as they are. *)
Variable printable : bytes -> bool.

(** One character inside quotation marks. *)
Inductive shown : bytes -> bytes -> Prop :=
| sh_nul : shown ["000"%char] (b "\0")
| sh_tab : shown [TAB] (b "\t")
| sh_cr : shown [CR] (b "\r")
| sh_lf : shown [LF] (b "\n")
| sh_quote : shown [DQ] [BS; DQ]
| sh_backslash : shown [BS] [BS; BS]
| sh_ascii c : 32 <= nat_of_ascii c <= 126 -> c <> DQ -> c <> BS -> shown [c] [c]
| sh_control c h : nat_of_ascii c < 32 \/ nat_of_ascii c = 127 -> ~ In c ["000"%char; TAB; CR; LF] ->
    hexadecimal (N_of_ascii c) h -> shown [c] (b "\u{" ++ h ++ b "}")
| sh_wide c : 1 < length c -> printable c = true -> shown c c
| sh_hidden c n h : 1 < length c -> printable c = false -> (n < 1114112)%N -> c = encode n ->
    hexadecimal n h -> shown c (b "\u{" ++ h ++ b "}").
Inductive all_shown : bytes -> bytes -> Prop :=
| as_nil : all_shown [] []
| as_cons c t s u : utf8_char c = true -> shown c t -> all_shown s u -> all_shown (c ++ s) (t ++ u).
Definition quoted (s q : bytes) : Prop := exists t, all_shown s t /\ q = [DQ] ++ t ++ [DQ].

(** The texts, with [sep] in between. *)
Definition spread (sep : bytes) (l : list bytes) : bytes :=
  match l with [] => [] | x :: l' => x ++ flat_map (fun y => sep ++ y) l' end.

(** ** Values *)

Definition functions : list bytes := map b
  ["attr"; "blur"; "brightness"; "calc"; "circle"; "color"; "contrast"; "counter"; "counters";
   "cubic-bezier"; "drop-shadow"; "ellipse"; "format"; "grayscale"; "hsl"; "hsla"; "hue-rotate"; "hwb";
   "image"; "inset"; "invert"; "lab"; "lch"; "linear-gradient"; "matrix"; "matrix3d"; "opacity";
   "perspective"; "polygon"; "radial-gradient"; "repeating-linear-gradient"; "repeating-radial-gradient";
   "rgb"; "rgba"; "rotate"; "rotate3d"; "rotateX"; "rotateY"; "rotateZ"; "saturate"; "sepia";
   "scale"; "scale3d"; "scaleX"; "scaleY"; "scaleZ"; "skew"; "skewX"; "skewY"; "symbols";
   "supports"; "translate"; "translate3d"; "translateX"; "translateY"; "translateZ"; "url"; "var"]%string.
Definition operators : list bytes := map b ["+"; "-"; "*"; "/"]%string.
(** Two functions separate their arguments by commas. *)
Inductive separator : bytes -> bytes -> Prop :=
| sep_comma f : In f [b "rgba"; b "hsla"] -> separator f (b ", ")
| sep_space f : ~ In f [b "rgba"; b "hsla"] -> separator f (b " ").

(** A literal as it is written in CSS. *)
Inductive literal : bytes -> bytes -> Prop :=
| lit_bare s : ~ contains_white s -> literal s s
| lit_quoted s q : contains_white s -> quoted s q -> literal s q.

(** [applied h l s]: the head [h] applied to [l] is [s]. *)
Inductive applied : bytes -> list bytes -> bytes -> Prop :=
| ap_function h l sep t : In h functions -> separator h sep -> trimmed (spread sep l) t ->
    applied h l (h ++ b "(" ++ t ++ b ")")
| ap_operator h l : ~ In h functions -> In h operators ->
    applied h l (b "(" ++ spread (b " " ++ h ++ b " ") l ++ b ")")
| ap_other h l t : ~ In h functions -> ~ In h operators -> trimmed (spread (b " ") l) t ->
    applied h l (h ++ b " " ++ t).

Inductive Value : node -> bytes -> Prop :=
| v_sym a s : literal (a_val a) s -> Value (Sym a) s
| v_num a s : literal (a_val a) s -> Value (Num a) s
| v_str a s : literal (a_val a) s -> Value (Str a) s
| v_raw a : Value (Raw a) (a_val a)
| v_nothing st ew es w : Value (Lst [] st ew es w) []
| v_list hd tl st ew es w h l s : Value hd h -> Values tl l -> applied h l s ->
    Value (Lst (hd :: tl) st ew es w) s
with Values : list node -> list bytes -> Prop :=
| vs_nil : Values [] []
| vs_cons n s ns l : Value n s -> Values ns l -> Values (n :: ns) (s :: l).

(** No value: the first attribute inside. *)
Inductive NoValue : node -> site -> Prop :=
| nv_attr k v st w : NoValue (Attr k v st w) st
| nv_inside l x r st ew es w st' ss : Values l ss -> NoValue x st' ->
    NoValue (Lst (l ++ x :: r) st ew es w) st'.

(** ** Rules *)

Definition line_rules : list bytes := map b ["@charset"; "@import"; "@namespace"]%string.
Definition nesting_rules : list bytes := map b
  ["@counter-style"; "@document"; "@font-feature-values"; "@keyframes"; "@media"; "@supports"]%string.

Definition a_list (n : node) : Prop := exists ns st ew es w, n = Lst ns st ew es w.

(** What may stand between an at-keyword and its end or its rules. *)
Inductive Param : node -> bytes -> Prop :=
| pm_attr k v st w s : Value v s -> Param (Attr k v st w) (b "(" ++ k ++ b ": " ++ s ++ b ") ")
| pm_value n s : Value n s -> Param n (s ++ b " ").
Inductive NoParam : node -> site -> Prop :=
| np_attr k v st w st' : NoValue v st' -> NoParam (Attr k v st w) st'
| np_value n st : (forall k v st w, n <> Attr k v st w) -> NoValue n st -> NoParam n st.

(** One line of an ordinary rule. *)
Inductive Property : node -> bytes -> Prop :=
| property k v st w s : Value v s -> Property (Attr k v st w) (b "  " ++ k ++ b ": " ++ s ++ b ";" ++ [LF]).

(** The rule with these elements. *)
Inductive Rule : list node -> bytes -> Prop :=
| r_line hd a args ps : atomic hd = Some a -> In (a_val a) line_rules -> Forall2 Param args ps ->
    Rule (hd :: args) (a_val a ++ b " " ++ concat ps ++ b ";" ++ [LF])
| r_nesting hd a params rules ps s : atomic hd = Some a -> In (a_val a) nesting_rules ->
    Forall (fun n => ~ a_list n) params -> Forall2 Param params ps -> Rules rules s ->
    Rule (hd :: params ++ rules)
      (a_val a ++ b " " ++ concat ps ++ match rules with [] => [] | _ => b "{" ++ [LF] end ++ s ++ b "}")
| r_ordinary hd a more sels props ps : atomic hd = Some a ->
    ~ In (a_val a) line_rules -> ~ In (a_val a) nesting_rules ->
    Forall2 (fun n a => atomic n = Some a) more sels -> props <> [] -> Forall2 Property props ps ->
    Rule (hd :: more ++ props)
      (concat (map (fun a => a_val a ++ b " ") (a :: sels)) ++ b "{" ++ [LF] ++ concat ps ++ b "}")
with Rules : list node -> bytes -> Prop :=
| rs_nil : Rules [] []
| rs_cons ns st ew es w s l s' : Rule ns s -> Rules l s' -> Rules (Lst ns st ew es w :: l) (w ++ s ++ s').

(** What stops a rule: an error, or a panic if there is no selector. *)
Inductive NoRule : list node -> res bytes -> Prop :=
| nr_empty : NoRule [] (Panic PUnwrap)
| nr_head hd l : atomic hd = None -> NoRule (hd :: l) (Panic PUnwrap)
| nr_line hd a l x r ps st : atomic hd = Some a -> In (a_val a) line_rules ->
    Forall2 Param l ps -> NoParam x st -> NoRule (hd :: l ++ x :: r) (Err (EErr ECssAttrInValue st))
| nr_param hd a l x r ps st : atomic hd = Some a -> In (a_val a) nesting_rules ->
    Forall (fun n => ~ a_list n) l -> Forall2 Param l ps -> ~ a_list x -> NoParam x st ->
    NoRule (hd :: l ++ x :: r) (Err (EErr ECssAttrInValue st))
| nr_nested hd a l rules ns st ew es w r ps s q : atomic hd = Some a -> In (a_val a) nesting_rules ->
    Forall (fun n => ~ a_list n) l -> Forall2 Param l ps -> Rules rules s -> NoRule ns q ->
    NoRule (hd :: l ++ rules ++ Lst ns st ew es w :: r) q
| nr_late hd a l rules x r ps s : atomic hd = Some a -> In (a_val a) nesting_rules ->
    Forall (fun n => ~ a_list n) l -> Forall2 Param l ps -> Rules rules s -> rules <> [] -> ~ a_list x ->
    NoRule (hd :: l ++ rules ++ x :: r) (Err (EErr ECssNotRule (node_site x)))
| nr_value hd a more sels l k v st w r ps st' : atomic hd = Some a ->
    ~ In (a_val a) line_rules -> ~ In (a_val a) nesting_rules ->
    Forall2 (fun n a => atomic n = Some a) more sels -> Forall2 Property l ps -> NoValue v st' ->
    NoRule (hd :: more ++ l ++ Attr k v st w :: r) (Err (EErr ECssAttrInValue st'))
| nr_property hd a more sels l x r ps : atomic hd = Some a ->
    ~ In (a_val a) line_rules -> ~ In (a_val a) nesting_rules ->
    Forall2 (fun n a => atomic n = Some a) more sels -> Forall2 Property l ps ->
    (l = [] -> atomic x = None) -> (forall k v st w, x <> Attr k v st w) ->
    NoRule (hd :: more ++ l ++ x :: r) (Err (EErr ECssNotProperty (node_site x)))
| nr_no_property hd a l last : atomic hd = Some a ->
    ~ In (a_val a) line_rules -> ~ In (a_val a) nesting_rules ->
    Forall (fun n => atomic n <> None) (hd :: l) -> (exists l', hd :: l = l' ++ [last]) ->
    NoRule (hd :: l) (Err (EErr ECssNotProperty (node_site last))).

(** What stops a sheet. *)
Inductive NoSheet : list node -> res bytes -> Prop :=
| ns_rule l ns st ew es w r s q : Rules l s -> NoRule ns q -> NoSheet (l ++ Lst ns st ew es w :: r) q
| ns_other l x r s : Rules l s -> ~ a_list x -> NoSheet (l ++ x :: r) (Err (EErr ECssSpecialBad (node_site x))).
End Css.
