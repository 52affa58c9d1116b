(** * Model of [crates/seam/src/parse/tokens.rs] and [lexer.rs] *)

From Coq Require Import List Ascii Bool Arith.
From Verif Require Import Text Utf8 Res.
Import ListNotations.

(** [tokens.rs:121-129] [enum Kind]. *)
Inductive kind := KLParen | KRParen | KSymbol | KString | KNumber | KKeyword.

(** [tokens.rs:131-137] [struct Token]. *)
Record token := Token {
  t_kind : kind;
  t_value : bytes;
  t_ws : bytes;     (* leading_whitespace *)
  t_site : site
}.

(** [tokens.rs:55-57] [Site::start_of_line] ([usize] subtraction; that it
    does not underflow is part of C04). *)
Definition site_start_of_line (s : site) : nat := s_off s - s_col s.

(** [tokens.rs:60-70] [Site::end_of_line]: scan for a newline from the start
    of the site. *)
Fixpoint scan_line (i : nat) (rest : bytes) : nat :=
  match rest with
  | [] => i
  | c :: r => if ch c LF then i else scan_line (S i) r
  end.
Definition site_end_of_line (src : bytes) (s : site) : nat :=
  scan_line (s_off s) (skipn (s_off s) src).

(** [tokens.rs:81-83] [Site::line_slice]. *)
Definition site_line_slice (src : bytes) (s : site) : bytes :=
  slice (site_start_of_line s) (site_end_of_line src s) src.

(** [lexer.rs:28-30] [is_whitespace]. *)
Definition is_whitespace (c : ascii) : bool :=
  ch c LF || ch c CR || ch c TAB || ch c " ".

(** [lexer.rs:32-44] [character_kind].  The argument is the first byte of the
    character: every pattern of the Rust [match] is an ASCII character, and
    a character of a valid UTF-8 string is ASCII iff its first byte is below
    128, in which case the two coincide; all others take the [_] arm. *)
Definition character_kind (c : ascii) : option kind :=
  if is_whitespace c then None
  else if ch c "(" then Some KLParen
  else if ch c ")" then Some KRParen
  else if between 48 57 c then Some KNumber
  else if ch c "+" || ch c "-" then Some KNumber
  else if ch c ":" then Some KKeyword
  else if ch c DQ then Some KString
  else Some KSymbol.

(** [lexer.rs:49-55] [struct Lexer]: the three cells, plus the part of the
    source that starts at [byte_offset] (so [source] itself need not be
    re-sliced; [l_rest = skipn l_off source] is an invariant, proved). *)
Record lex := Lex {
  l_line : nat;   (* line *)
  l_off  : nat;   (* byte_offset *)
  l_col  : nat;   (* byte_offset_line *)
  l_rest : bytes  (* source[byte_offset..] *)
}.

(** [lexer.rs:58-66] [Lexer::new]. *)
Definition lex_new (source : bytes) : lex := Lex 1 0 0 source.

(** [lexer.rs:72-77] [increment_byte_offsets]. *)
Definition incr (n : nat) (s : lex) : lex :=
  Lex (l_line s) (l_off s + n) (l_col s + n) (skipn n (l_rest s)).

(** [lexer.rs:79-83] [next_line]. *)
Definition next_line (s : lex) : lex :=
  Lex (S (l_line s)) (l_off s) 0 (l_rest s).

(** [lexer.rs:94-116]: the loop of [consume_whitespace].  [acc] is
    [bytes[start..byte_offset]]; [inside] is [inside_eon_comment]. *)
Fixpoint cw_loop (line off col : nat) (inside : bool) (acc rest : bytes)
  {struct rest} : bytes * lex :=
  match rest with
  | [] => (acc, Lex line off col [])
  | byte :: rest' =>
      let inside := if ch byte ";" then true else inside in
      if negb (is_whitespace byte) && negb inside
      then (acc, Lex line off col rest)
      else
        match rest' with
        | [] => (acc ++ [byte], Lex line (S off) (S col) [])
        | _ :: _ =>
            if ch byte LF then
              if inside
              then cw_loop (S line) (S off) 0 false [byte] rest'
              else cw_loop (S line) (S off) 0 inside (acc ++ [byte]) rest'
            else cw_loop line (S off) (S col) inside (acc ++ [byte]) rest'
        end
  end.

(** [lexer.rs:87-120] [consume_whitespace]. *)
Definition consume_whitespace (s : lex) : bytes * lex :=
  cw_loop (l_line s) (l_off s) (l_col s) false [] (l_rest s).

(** [lexer.rs:124-132] [peek_char]: represented by the first byte of the
    character (see [character_kind]). *)
Definition peek_char (s : lex) : option ascii :=
  match l_rest s with [] => None | c :: _ => Some c end.

(** Number of continuation bytes at the front of a text. *)
Fixpoint count_cont (s : bytes) : nat :=
  match s with
  | c :: s' => if is_cont c then S (count_cont s') else 0
  | [] => 0
  end.

(** [lexer.rs:141-151] [consume_char].  At end of file the code increments
    the offset past the end and then searches for a character boundary
    beyond it, which never comes ([is_char_boundary] is false for every
    index greater than the length): [Hang]. *)
Definition consume_char (s : lex) : res (ascii * lex) :=
  match l_rest s with
  | [] => Hang
  | c :: r =>
      let s1 := incr (S (count_cont r)) s in
      Ok (c, if ch c LF then next_line s1 else s1)
  end.

(** [lexer.rs:300-303] [site]. *)
Definition mk_site (id : nat) (s : lex) (file_offset line_offset : nat) : site :=
  Site id (l_line s) file_offset line_offset (l_off s - file_offset).

(** Text between two lexer states, [&source[start..byte_offset]]. *)
Definition text_between (s s' : lex) : bytes :=
  firstn (l_off s' - l_off s) (l_rest s).

(** [lexer.rs:182-203]: the loop of [consume_identifier_string]. *)
Fixpoint cis_loop (fuel : nat) (s : lex) : res lex :=
  match fuel with
  | 0 => OutOfFuel
  | S f =>
      match peek_char s with
      | None => Ok s
      | Some c =>
          match character_kind c with
          | None => Ok s
          | Some k =>
              if ch c BS then
                let* '(_, s1) := consume_char s in
                let* '(esc, s2) := consume_char s1 in
                cis_loop f (if ch esc LF then next_line s2 else s2)
              else
                match k with
                | KSymbol | KNumber | KKeyword =>
                    let* '(_, s1) := consume_char s in cis_loop f s1
                | _ => Ok s
                end
          end
      end
  end.

(** [lexer.rs:182-205] [consume_identifier_string]. *)
Definition consume_identifier_string (s : lex) : res (bytes * lex) :=
  let* s' := cis_loop (S (length (l_rest s))) s in
  Ok (text_between s s', s').

Section WithSource.
(** Identity of the source buffer being lexed. *)
Variable id : nat.

(** [lexer.rs:153-160] [consume_lparen], [lexer.rs:162-169] [consume_rparen]:
    the same code up to the expected character and the token kind. *)
Definition consume_paren (c : ascii) (k : kind) (ws : bytes) (s : lex)
  : res (token * lex) :=
  let* '(d, s') := consume_char s in
  if ch c d
  then Ok (Token k (text_between s s') ws (mk_site id s' (l_off s) (l_col s)), s')
  else Panic PUnwrap.

(** [lexer.rs:171-177] [consume_number], [lexer.rs:208-214] [consume_symbol]. *)
Definition consume_ident (k : kind) (ws : bytes) (s : lex) : res (token * lex) :=
  let* '(value, s') := consume_identifier_string s in
  Ok (Token k value ws (mk_site id s' (l_off s) (l_col s)), s').

Definition triple_quote : bytes := [DQ; DQ; DQ].

(** [lexer.rs:229-246]: loop of a triple-quoted string; [None] at EOF. *)
Fixpoint triple_loop (fuel : nat) (esc : bool) (s : lex) : res (option lex) :=
  match fuel with
  | 0 => OutOfFuel
  | S f =>
      match peek_char s with
      | None => Ok None
      | Some c =>
          let s := if ch c LF then next_line s else s in
          if starts_with triple_quote (l_rest s) && negb esc then Ok (Some s)
          else
            let esc := if negb esc then ch c BS else false in
            let* '(_, s1) := consume_char s in triple_loop f esc s1
      end
  end.

(** [lexer.rs:260-277]: loop of an ordinary string; [None] at EOF. *)
Fixpoint string_loop (fuel : nat) (esc : bool) (s : lex) : res (option lex) :=
  match fuel with
  | 0 => OutOfFuel
  | S f =>
      match peek_char s with
      | None => Ok None
      | Some c =>
          let s := if ch c LF then next_line s else s in
          if ch c DQ && negb esc then Ok (Some s)
          else
            let esc := if negb esc then ch c BS else false in
            let* '(_, s1) := consume_char s in string_loop f esc s1
      end
  end.

(** [lexer.rs:217-288] [consume_string]. *)
Definition consume_string (ws : bytes) (s : lex) : res (token * lex) :=
  match peek_char s with
  | None => Panic PUnwrap
  | Some c =>
  if negb (ch DQ c) then Panic PUnwrap else
  let '(n, ek) := if starts_with triple_quote (l_rest s)
                  then (3, EUnclosedTriple) else (1, EUnclosedString) in
  let s1 := incr n s in
  let* o := (if starts_with triple_quote (l_rest s)
             then triple_loop else string_loop) (S (length (l_rest s1))) false s1 in
  match o with
  | None => Err (EErr ek (Site id (l_line s) (l_off s) (l_col s) n))
  | Some s2 =>
      let s3 := incr n s2 in
      let st := mk_site id s3 (l_off s) (l_col s) in
      let st := Site (s_src st) (l_line s) (s_off st) (s_col st) (s_span st) in
      Ok (Token KString (text_between s1 s2) ws st, s3)
  end
  end.

(** [lexer.rs:290-297] [consume_keyword].  The two [usize] subtractions
    [start - 1] and [start_from_line - 1] panic on underflow (excluded by
    the proofs). *)
Definition consume_keyword (ws : bytes) (s : lex) : res (token * lex) :=
  let* '(c, s1) := consume_char s in
  if negb (ch ":" c) then Panic PUnwrap else
  let* '(value, s2) := consume_identifier_string s1 in
  if (l_off s1 =? 0) || (l_col s1 =? 0) then Panic POverflow else
  Ok (Token KKeyword value ws (mk_site id s2 (l_off s1 - 1) (l_col s1 - 1)), s2).

(** [lexer.rs:305-320] [consume]. *)
Definition consume (s : lex) : res (token * lex) :=
  let '(ws, s1) := consume_whitespace s in
  match peek_char s1 with
  | None => Panic PUnwrap
  | Some c =>
      match character_kind c with
      | Some KLParen => consume_paren "(" KLParen ws s1
      | Some KRParen => consume_paren ")" KRParen ws s1
      | Some KNumber => consume_ident KNumber ws s1
      | Some KString => consume_string ws s1
      | Some KSymbol => consume_ident KSymbol ws s1
      | Some KKeyword => consume_keyword ws s1
      | None => Panic PUnreachable
      end
  end.

(** [lexer.rs:325-340] [restore]: run an action that moves the lexer, then
    reset the three cells. *)
Definition restore {A} (action : lex -> res (A * lex)) (s : lex)
  : res (A * lex) :=
  let* '(a, s') := action s in
  Ok (a, Lex (l_line s) (l_off s) (l_col s) (l_rest s)).

(** [lexer.rs:344-348] [peek]. *)
Definition peek (s : lex) : res (token * lex) := restore consume s.

(** [lexer.rs:351-356] [eof]. *)
Definition eof (s : lex) : res (bool * lex) :=
  restore (fun s => let '(_, s') := consume_whitespace s in
                    Ok (match peek_char s' with None => true | _ => false end, s')) s.
End WithSource.
