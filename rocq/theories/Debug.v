(** * Rust's string formatting used by the formatters

    [{:?}] on strings, [str::trim], [char::is_whitespace] (standard library;
    written out here because the formatters' output depends on them). *)

From Coq Require Import String List Ascii Bool Arith NArith.
From Verif Require Import Text Utf8.
Import ListNotations.

(** Hexadecimal digits of a number, lower case, no leading zeros. *)
Definition hex_digit (n : N) : ascii :=
  ascii_of_N (if (n <? 10)%N then 48 + n else 87 + n).
Fixpoint hex_aux (fuel : nat) (n : N) (acc : bytes) : bytes :=
  match fuel with
  | 0 => acc
  | S f =>
      let acc := hex_digit (n mod 16) :: acc in
      if (n <? 16)%N then acc else hex_aux f (n / 16) acc
  end.
Definition hex (n : N) : bytes := hex_aux 8 n [].

(** Code point of one encoded character. *)
Definition low6 (c : ascii) : N := (N_of_ascii c mod 64)%N.
Definition code_point (s : bytes) : N :=
  match s with
  | [c] => N_of_ascii c
  | [c; d] => ((N_of_ascii c mod 32) * 64 + low6 d)%N
  | [c; d; e] => ((N_of_ascii c mod 16) * 4096 + low6 d * 64 + low6 e)%N
  | [c; d; e; f] =>
      ((N_of_ascii c mod 8) * 262144 + low6 d * 4096 + low6 e * 64 + low6 f)%N
  | _ => 0%N
  end.

Definition unicode_escape (ch : bytes) : bytes := b "\u{" ++ hex (code_point ch) ++ b "}".

(** [char::escape_debug_ext] for ASCII, as used by [Debug for str]. *)
Definition debug_ascii (c : ascii) : bytes :=
  if ch c "000" then b "\0"
  else if ch c TAB then b "\t"
  else if ch c CR then b "\r"
  else if ch c LF then b "\n"
  else if ch c DQ then [BS; DQ]
  else if ch c BS then [BS; BS]
  else if between 32 126 c then [c]
  else unicode_escape [c].

Section Debug.
(** Which non-ASCII characters are printed as they are: decided by the
    Unicode tables of the standard library, a parameter here. *)
Variable printable : bytes -> bool.

Fixpoint take_cont (s : bytes) : bytes * bytes :=
  match s with
  | c :: s' => if is_cont c then let '(ks, r) := take_cont s' in (c :: ks, r) else ([], s)
  | [] => ([], [])
  end.

Fixpoint debug_chars (fuel : nat) (s : bytes) : bytes :=
  match fuel with
  | 0 => []
  | S f =>
      match s with
      | [] => []
      | c :: r =>
          if between 0 127 c then debug_ascii c ++ debug_chars f r
          else
            let '(ks, r') := take_cont r in
            (if printable (c :: ks) then c :: ks else unicode_escape (c :: ks))
              ++ debug_chars f r'
      end
  end.

(** [format!("{:?}", s)]. *)
Definition debug_body (s : bytes) : bytes := debug_chars (length s) s.
Definition debug_str (s : bytes) : bytes := DQ :: debug_body s ++ [DQ].
End Debug.

(** Encodings of the characters with the Unicode property White_Space. *)
Definition bytes_of (l : list nat) : bytes := map ascii_of_nat l.
Definition white_chars : list bytes :=
  map bytes_of
    ([ [9]; [10]; [11]; [12]; [13]; [32]; [194; 133]; [194; 160];
       [225; 154; 128]; [226; 128; 168]; [226; 128; 169]; [226; 128; 175];
       [226; 129; 159]; [227; 128; 128] ]
     ++ map (fun i => [226; 128; 128 + i]) (seq 0 11)).

(** [s.chars().any(char::is_whitespace)]: some white character's encoding
    occurs in [s] (for valid UTF-8 an occurrence is always a character). *)
Fixpoint has_white (s : bytes) : bool :=
  existsb (fun w => starts_with w s) white_chars ||
  match s with [] => false | _ :: r => has_white r end.

(** [str::trim]. *)
Fixpoint trim_with (ws : list bytes) (fuel : nat) (s : bytes) : bytes :=
  match fuel with
  | 0 => s
  | S f =>
      match find (fun w => starts_with w s) ws with
      | Some w => trim_with ws f (skipn (length w) s)
      | None => s
      end
  end.
Definition trim_start (s : bytes) : bytes := trim_with white_chars (length s) s.
Definition trim_end (s : bytes) : bytes :=
  rev (trim_with (map (@rev ascii) white_chars) (length s) (rev s)).
Definition trim (s : bytes) : bytes := trim_end (trim_start s).

(** [\[String\]::join]. *)
Fixpoint join (sep : bytes) (l : list bytes) : bytes :=
  match l with
  | [] => []
  | [x] => x
  | x :: l' => x ++ sep ++ join sep l'
  end.
