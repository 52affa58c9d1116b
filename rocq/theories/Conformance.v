(** * The model run on the project's own tests

    These are tests of the model, not theorems about it: programs with
    expected output from [crates/seam/src/tests.rs], [samples/tests] and
    [README.md], run by the model under an environment with two files. *)

From Coq Require Import String List Ascii Bool Arith NArith ZArith.
From Verif Require Import Text Res Ast Parser Format Env Scope State Numbers Paths Expander.
Import ListNotations.

(** Escape sequences of [descape], as far as the tests need them. *)
Fixpoint unescape0 (s : bytes) : option bytes :=
  match s with
  | [] => Some []
  | "\"%char :: "n"%char :: s' => option_map (cons LF) (unescape0 s')
  | "\"%char :: c :: s' => option_map (cons c) (unescape0 s')
  | c :: s' => option_map (cons c) (unescape0 s')
  end.

(** Decimal numbers, in units of 10^-3. *)
Fixpoint frac3 (k : nat) (s : bytes) : option Z :=
  match k, s with
  | 0, [] => Some 0%Z
  | 0, _ => None
  | S k', [] => frac3 k' []
  | S k', c :: s' =>
      match digit c, frac3 k' s' with
      | Some d, Some r => Some (Z.of_N d * 10 ^ Z.of_nat k' + r)%Z
      | _, _ => None
      end
  end.
Definition decimal (s : bytes) : option Z :=
  let '(neg, s) := match s with
    | "-"%char :: s' => (true, s') | "+"%char :: s' => (false, s') | _ => (false, s) end in
  let r := match split (b ".") s with
    | [i] => option_map (fun z => Z.of_N z * 1000)%Z (digits i)
    | [i; f] => match digits i, frac3 3 f with
                | Some z, Some g => Some (Z.of_N z * 1000 + g)%Z
                | _, _ => None
                end
    | _ => None
    end in
  option_map (fun z => if neg : bool then Z.opp z else z) r.

Definition env0_with (files : list (bytes * bytes)) (dirs : list bytes) : env := {|
  e_order := fun _ l => l;
  e_unescape := unescape0;
  e_read := fun p => match find (fun '(q, _) => beq p q) files with
                     | Some (_, text) => Some text | None => None end;
  e_includes := include_set dirs;
  e_getenv := fun k => if beq k (b "HOME") then Some (b "/root") else None;
  e_hash := fun _ line _ _ _ => N.of_nat line;
  e_float := fun s => option_map (@Some Z) (decimal s);
  e_fixed := fun s => option_map (fun z => z * 2 ^ 32 / 1000)%Z (decimal s);
  e_local := 0%Z;
  e_time_ok := fun _ => true;
  e_date := fun _ _ _ => None;
  e_parse_date := fun _ _ => None;
  e_parse_naive := fun _ _ => None;
  e_template := fun _ => true;
  e_format := fun _ _ => None;
  e_html := fun _ => None;
  e_front := fun _ => None;
  e_yaml := fun _ => ([], false);
  e_toml := fun _ => None;
  e_glob := fun _ => None;
  e_unsorted := fun _ => None;
  e_unlisted := fun _ => (0, [])
|}.
Definition env0 (files : list (bytes * bytes)) : env := env0_with files [].

(** Expansion followed by a formatter. *)
Definition produce (format : (bytes -> bool) -> (nat -> bytes) -> tree -> res bytes)
  (files : list (bytes * bytes)) (text : bytes) : res bytes :=
  let* '(t, s) := expand (env0 files) 100 (b "<test>") text in
  format (fun _ => true) (fun i => snd (nth i (g_sources (x_world s)) ([], []))) t.
Definition shown (printable : bytes -> bool) (_ : nat -> bytes) (t : tree) : res bytes :=
  Ok (flat_map (display_node printable) t).

Definition html_test_1 := b "(!DOCTYPE html)
(html :lang en   ; language is set to english.
  (head
    (title Example HTML Document)
    (style (%include ""./test-css.sex"")))
  (body
    (p :id hello Hello, World!)
    (p something something text...)
    (h1 ""A (big) Header!"")
    (p Yet some more
       (span :style ""color: red"" text) <3)
    (p Hello(span :style ""color: green"" World)!)
    (img
      :alt ""Cute cat""
      :src ""https://static.insider.com/image/5d24d6b921a861093e71fef3.jpg""
      :width 300)))
".
Definition test_css := b "(html
  :width 100%
  :height 100%)

(html , body
  :margin 0
  :padding 0)

(body
  :padding (4em 6em))

(#hello
   :color (rgb 24 (calc (+ 3 (* 7 3) 1)) 4)
   :font-family sans-serif)

(img :border-radius 5px)
".

(** [samples/tests/html-test-1-2024-06-28.html], except for two changes made to
    [html.rs] after that date: text is escaped ([html.rs:40,44]) and
    attributes keep their whitespace ([html.rs:92-95]). *)
Definition html_expected := b "<!DOCTYPE html>
<html lang=""en"">
  <head>
    <title>Example HTML Document</title>
    <style>
html {
  width: 100%;
  height: 100%;
}

html , body {
  margin: 0;
  padding: 0;
}

body {
  padding: 4em 6em;
}

#hello {
  color: rgb(24 calc((3 + (7 * 3) + 1)) 4);
  font-family: sans-serif;
}

img {
  border-radius: 5px;
}
    </style>
  </head>
  <body>
    <p id=""hello"">Hello, World!</p>
    <p>something something text...</p>
    <h1>A (big) Header!</h1>
    <p>Yet some more
       <span style=""color: red"">text</span> &lt;3</p>
    <p>Hello<span style=""color: green"">World</span>!</p>
    <img
      alt=""Cute cat""
      src=""https://static.insider.com/image/5d24d6b921a861093e71fef3.jpg""
      width=""300"">
  </body>
</html>".

Example sample_html :
  produce html_document [(b "././test-css.sex", test_css)] html_test_1 = Ok html_expected.
Proof. vm_compute. reflexivity. Qed.

(** [tests.rs:28-56]. *)
Example run_01 :
  produce shown []
    (b "(%sort (13 d 8 e 14 f 9 10 g 11 12 a b c 0 0.1 1.5 0.2 1 2 -1 -10 -2 -1.4 -0.3) :order ascending)")
  = Ok (b "(-10 -2 -1.4 -1 -0.3 0 0.1 0.2 1 1.5 2 8 9 10 11 12 13 14 a b c d e f g)").
Proof. vm_compute. reflexivity. Qed.
Example run_02 :
  produce shown []
    (b "(%sort :key (%lambda ((x y z)) %y) ((x 3 b) (z 1 a) (y 2 c)))")
  = Ok (b "((z 1 a) (y 2 c) (x 3 b))").
Proof. vm_compute. reflexivity. Qed.
Example run_03 :
  produce shown []
    (b "(%reverse (a 3  2 1 2 s))")
  = Ok (b "(s 2  1 2 3 a)").
Proof. vm_compute. reflexivity. Qed.
(** [README.md:88]. *)
Example run_04 :
  produce shown []
    (b "(hello (%define subject world) %subject)")
  = Ok (b "(hello world)").
Proof. vm_compute. reflexivity. Qed.
(** [README.md:122]; the whitespace is that of the selected nodes. *)
Example run_05 :
  produce shown []
    (b "(%get b (:a 1 :b 2)) (%get 0 (a b c))")
  = Ok (b " 2a").
Proof. vm_compute. reflexivity. Qed.
(** [README.md:128]. *)
Example run_06 :
  produce shown []
    (b "(%splat (a b c))")
  = Ok (b "a b c").
Proof. vm_compute. reflexivity. Qed.
(** [README.md:129-130]. *)
Example run_07 :
  produce shown []
    (b "(%define n 1)(%define x %n)(%define (y) %n)(%define n 2)%x (%y)")
  = Ok (b "1 2").
Proof. vm_compute. reflexivity. Qed.
(** [README.md:131]. *)
Example run_08 :
  produce shown [(b "./f.sex", b "(%define defn 12)")]
    (b "(%namespace ns (%include f.sex))%ns/defn")
  = Ok (b "12").
Proof. vm_compute. reflexivity. Qed.
(** [README.md:140], with the missing percent signs. *)
Example run_09 :
  produce shown []
    (b "(%apply (%lambda (a b) %b %a) x y)")
  = Ok (b " y x").
Proof. vm_compute. reflexivity. Qed.
(** [README.md:141-142]. *)
Example run_10 :
  produce shown []
    (b "(%join - a b c)(%concat a b)")
  = Ok (b """a-b-c""""ab""").
Proof. vm_compute. reflexivity. Qed.
(** [USAGE.md:52]. *)
Example run_11 :
  produce shown []
    (b "(%ifdef title (title My Blog - %title) (title My Blog))")
  = Ok (b "(title My Blog)").
Proof. vm_compute. reflexivity. Qed.
Example run_12 :
  produce shown []
    (b "(%define title T)(%ifdef title (title My Blog - %title) (title My Blog))")
  = Ok (b "(title My Blog - T)").
Proof. vm_compute. reflexivity. Qed.
(** [USAGE.md:50]. *)
Example run_13 :
  produce shown []
    (b "(%define (greet name) (p Hello there, %name))(%greet Sam)")
  = Ok (b " (p Hello there, Sam)").
Proof. vm_compute. reflexivity. Qed.
(** [README.md:121]. *)
Example run_14 :
  produce shown []
    (b "(%match (:a 1 :b 2) ((:b default &&_) %b))")
  = Ok (b " 2").
Proof. vm_compute. reflexivity. Qed.
Example run_15 :
  produce shown []
    (b "(ul (%for x in (1 2 3) (li %x)))")
  = Ok (b "(ul (li 1) (li 2) (li 3))").
Proof. vm_compute. reflexivity. Qed.
