(** * Properties of splitting, integers and paths (C60-C62) *)

From Coq Require Import String List Ascii Bool Arith NArith ZArith Lia.
From Verif Require Import Text Utf8 Numbers Paths Spec_builtin Spec_scope Spec_text
  Proofs_text Proofs_textual Proofs_paths.
Import ListNotations.

(** ** C60: splitting *)

(** A text is cut at the leftmost occurrence of the separator, then what is
    left of it, and so on. *)
Theorem c60_split : forall sep s l, sep <> [] -> split sep s = l <-> cut sep s l.
Proof. exact split_exactly. Qed.
Print Assumptions c60_split.

(** The pieces do not contain the separator, and joining them with it gives
    the text back. *)
Theorem c60_joined : forall sep s, sep <> [] ->
  separated sep (split sep s) = s /\ Forall (fun x => ~ occurs sep x) (split sep s).
Proof. exact split_joined. Qed.
Print Assumptions c60_joined.

(** The empty separator gives an empty piece, the characters one by one, and
    an empty piece. *)
Theorem c60_characters : forall s, utf8 s -> exists cs,
  split [] s = [[]] ++ cs ++ [[]] /\ concat cs = s /\ Forall (fun c => utf8_char c = true) cs.
Proof. exact split_chars. Qed.
Print Assumptions c60_characters.

Example c60_example :
  split (b "--") (b "a---b--") = [b "a"; b "-b"; []] /\
  split (b "/") (b "x/0/y") = [b "x"; b "0"; b "y"] /\
  split [] (b "ab") = [[]; b "a"; b "b"; []] /\
  cut (b "--") (b "a---b") [b "a"; b "-b"].
Proof.
  repeat split; try (vm_compute; reflexivity). apply split_exactly; [discriminate|]. vm_compute. reflexivity.
Qed.
(** U+00E9 takes two bytes. *)
Example c60_example_utf8 :
  let e := [ascii_of_nat 195; ascii_of_nat 169] in
  utf8 (b "a" ++ e) /\ split [] (b "a" ++ e) = [[]; b "a"; e; []].
Proof.
  split; [|vm_compute; reflexivity].
  apply (utf8_app (b "a")); [vm_compute; reflexivity|].
  apply (utf8_app [ascii_of_nat 195; ascii_of_nat 169] []); [vm_compute; reflexivity|constructor].
Qed.

(** ** C61: integers *)

(** What counts as an index, and as an integer, and its value. *)
Theorem c61_usize : forall s n, parse_usize s = Some n <-> (n < 2 ^ 64)%N /\ unsigned_numeral s n.
Proof. exact parse_usize_iff. Qed.
Print Assumptions c61_usize.

Theorem c61_i64 : forall s z, parse_i64 s = Some z <-> (- 2 ^ 63 <= z < 2 ^ 63)%Z /\ signed_numeral s z.
Proof. exact parse_i64_iff. Qed.
Print Assumptions c61_i64.

(** Digits denote one number only. *)
Theorem c61_unique : forall s n m, numeral s n -> numeral s m -> n = m.
Proof. exact numeral_unique. Qed.
Print Assumptions c61_unique.

(** A printed integer is a numeral for it, and is read back. *)
Theorem c61_printed : forall n z,
  numeral (show_nat n) (N.of_nat n) /\ signed_numeral (show_Z z) z /\
  ((- 2 ^ 63 <= z < 2 ^ 63)%Z -> parse_i64 (show_Z z) = Some z).
Proof. exact (fun n z => conj (show_nat_numeral n) (conj (show_Z_numeral z) (parse_show_Z z))). Qed.
Print Assumptions c61_printed.

Example c61_example :
  parse_usize (b "+007") = Some 7%N /\ parse_usize (b "-7") = None /\ parse_usize (b "+") = None /\
  parse_usize (b "18446744073709551615") = Some 18446744073709551615%N /\
  parse_usize (b "18446744073709551616") = None /\
  parse_i64 (b "-9223372036854775808") = Some (-9223372036854775808)%Z /\
  parse_i64 (b "9223372036854775808") = None /\ parse_i64 (b "1.5") = None /\
  show_Z (-42) = b "-42".
Proof. vm_compute. repeat split. Qed.

(** ** C62: paths *)

Theorem c62_components : forall p l, components p = l <-> consists p l.
Proof. exact (fun p l => iff_sym (consists_iff p l)). Qed.
Print Assumptions c62_components.

(** A path has a file name if its last component is a name; the rest is its
    parent. *)
Theorem c62_file_name : forall p f, (exists d, file_name p = Some (f, d)) <-> exists l, consists p (l ++ [Normal f]).
Proof. exact file_name_exactly. Qed.
Print Assumptions c62_file_name.
Theorem c62_parent : forall p f d l, file_name p = Some (f, d) -> consists p (l ++ [Normal f]) -> consists d l.
Proof. exact file_name_parent. Qed.
Print Assumptions c62_parent.

(** The second name tried by [%include]. *)
Theorem c62_sex : forall p q, with_sex p = Some q ->
  exists l f, consists p (l ++ [Normal f]) /\ consists q (l ++ [Normal (f ++ b ".sex")]).
Proof. exact with_sex_some. Qed.
Print Assumptions c62_sex.
Theorem c62_no_sex : forall p, with_sex p = None <-> ~ exists l f, consists p (l ++ [Normal f]).
Proof. exact with_sex_none. Qed.
Print Assumptions c62_no_sex.

(** A relative path inside a directory. *)
Theorem c62_join : forall d p l m, consists d l -> consists p m -> d <> [] ->
  ~ In RootDir m -> consists (path_join d p) (l ++ after_slash m).
Proof.
  exact (fun d p l m D P N R => proj2 (consists_iff _ _)
    (join_in d p l m (proj1 (consists_iff _ _) D) (proj1 (consists_iff _ _) P) N R)).
Qed.
Print Assumptions c62_join.
Theorem c62_join_absolute : forall d p m, consists p m -> d = [] \/ In RootDir m -> consists (path_join d p) m.
Proof. exact join_absolute. Qed.
Print Assumptions c62_join_absolute.

Theorem c62_extension : forall p e, extension p = Some e <->
  exists l stem, consists p (l ++ [Normal (stem ++ b "." ++ e)]) /\ stem <> [] /\ ~ In "."%char e.
Proof. exact extension_exactly. Qed.
Print Assumptions c62_extension.

Theorem c62_order : forall p q l m, consists p l -> consists q m ->
  (path_cmp p q = Lt <-> earlier l m) /\ (path_cmp p q = Eq <-> l = m) /\ (path_cmp p q = Gt <-> earlier m l).
Proof. exact path_order. Qed.
Print Assumptions c62_order.

Example c62_example :
  consists (b "/a//./b/../c.sex/") [RootDir; Normal (b "a"); Normal (b "b"); ParentDir; Normal (b "c.sex")] /\
  consists (b "./x/.") [CurDir; Normal (b "x")] /\
  file_name (b "d/x/.") = Some (b "x", b "d") /\ file_name (b "d/..") = None /\
  with_sex (b "lib/page/") = Some (b "lib/page.sex") /\
  path_join (b "lib") (b "./page") = b "lib/./page" /\
  extension (b "a.tar.gz") = Some (b "gz") /\ extension (b "d.x/.profile") = None /\
  extension (b "a.") = Some [].
Proof. repeat split; try (vm_compute; reflexivity); apply c62_components; vm_compute; reflexivity. Qed.
Example c62_example_order :
  path_cmp (b "/a") (b "./a") = Lt /\ path_cmp (b "./a") (b "../a") = Lt /\
  path_cmp (b "../a") (b "A") = Lt /\ path_cmp (b "a/b") (b "a.b") = Lt /\
  path_cmp (b "a//b/") (b "a/./b") = Eq.
Proof. vm_compute. repeat split. Qed.
