(** * Paths as text *)

From Coq Require Import List Ascii Bool Arith.
From Verif Require Import Text Utf8.
Import ListNotations.

(** [std]: [core/src/str/lossy.rs], the loop of [Utf8Chunks::next]: whether
    the text starts with a character, and the number of bytes that are then
    that character or else replaced.  A byte beyond the end counts as 0
    ([safe_get]). *)
Definition scan (s : bytes) : bool * nat :=
  let get i := nth i s "000"%char in
  let c := get 0 in
  if between 0 127 c then (true, 1)
  else if between 194 223 c then
    if is_cont (get 1) then (true, 2) else (false, 1)
  else if between 224 239 c then
    if (between 224 224 c && between 160 191 (get 1)) || (between 225 236 c && between 128 191 (get 1))
       || (between 237 237 c && between 128 159 (get 1)) || (between 238 239 c && between 128 191 (get 1))
    then if is_cont (get 2) then (true, 3) else (false, 2)
    else (false, 1)
  else if between 240 244 c then
    if (between 240 240 c && between 144 191 (get 1)) || (between 241 243 c && between 128 191 (get 1))
       || (between 244 244 c && between 128 143 (get 1))
    then if is_cont (get 2) then if is_cont (get 3) then (true, 4) else (false, 3) else (false, 2)
    else (false, 1)
  else (false, 1).

(** [U+FFFD], the replacement character. *)
Definition replacement : bytes := [ascii_of_nat 239; ascii_of_nat 191; ascii_of_nat 189].

(** [OsStr::to_string_lossy], i.e. [String::from_utf8_lossy], used by
    [expander.rs:1286].  The budget is the length. *)
Fixpoint lossy_loop (fuel : nat) (s : bytes) : bytes :=
  match fuel, s with
  | 0, _ | _, [] => []
  | S fuel, _ =>
      let '(ok, k) := scan s in
      (if ok then firstn k s else replacement) ++ lossy_loop fuel (skipn k s)
  end.
Definition lossy (s : bytes) : bytes := lossy_loop (length s) s.
