(** * Model of the command line program, [crates/seam/src/bin.rs] *)

From Coq Require Import String List Ascii Bool Arith.
From Verif Require Import Text Res Ast Env State Paths Format Expander.
Import ListNotations.

(** The world of one run of the program.  Arguments are texts: [env::args]
    panics on others, which is not modelled. *)
Record world := World {
  (* [Path::exists] *)
  w_exists : bytes -> bool;
  (* [stdin.read_to_string]: [None] if it fails *)
  w_stdin : option bytes;
  (* the environment of the n-th expander, apart from its include directories *)
  w_env : nat -> env;
  (* see [Debug.v] *)
  w_printable : bytes -> bool;
  (* can the report on this error in the n-th source be formatted?  See
     [Report.v]; it cannot if it needs a width above 65535 (C55) *)
  w_shows : nat -> err -> bool
}.

(** How the program ends: exit code, panic, or not at all ([lexer.rs]'s
    endless loop); [Unfinished]: the model's budget ran out. *)
Inductive ending := Exit (code : nat) | Crash (p : panic) | Forever | Unfinished.

(** [str::split]: the text before the first occurrence of a separator, and
    the text after it; [split(sep).nth(1)]. *)
Fixpoint cut_at (sep s : bytes) : option (bytes * bytes) :=
  if starts_with sep s then Some ([], skipn (length sep) s)
  else match s with
       | [] => None
       | c :: s' => option_map (fun '(x, r) => (c :: x, r)) (cut_at sep s')
       end.
Definition second_piece (sep s : bytes) : option bytes :=
  match cut_at sep s with
  | None => None
  | Some (_, r) => Some (match cut_at sep r with Some (x, _) => x | None => r end)
  end.

(** [bin.rs:18] [SUPPORTED_TARGETS]. *)
Definition supported_targets : list bytes := map b ["text"; "sexp"; "html"; "xml"; "css"]%string.

(** [bin.rs:25-29]; the [BTreeSet] of directories as in [Paths.v]. *)
Record config := Config {
  files : list bytes; target : bytes; include_dirs : list bytes; from_stdin : bool; is_doc : bool
}.
Definition defaults : config := Config [] [] [] false true.

(** One round of the loop [bin.rs:31-71]: the new configuration, or the exit
    code.  [&arg[2..]] cannot panic: the bytes before are [-I]. *)
Definition read_arg (W : world) (arg : bytes) (c : config) : config + nat :=
  match arg with
  | "-"%char :: _ =>
      match second_piece (b "--") arg with
      | Some opt =>
          if existsb (beq opt) supported_targets then
            inl (Config (files c) opt (include_dirs c) (from_stdin c) (is_doc c))
          else if beq opt (b "nodocument") || beq opt (b "nodoc") then
            inl (Config (files c) (target c) (include_dirs c) (from_stdin c) false)
          else inr 1
      | None =>
          match second_piece (b "-") arg with
          | Some opt =>
              match opt with
              | ["v"%char] => inr 0
              | "I"%char :: _ =>
                  inl (Config (files c) (target c) (bt_insert path_cmp (skipn 2 arg) (include_dirs c))
                         (from_stdin c) (is_doc c))
              | [] => inl (Config (files c) (target c) (include_dirs c) true (is_doc c))
              | _ => inr 1
              end
          | None => inl c
          end
      end
  | _ =>
      if w_exists W arg then
        inl (Config (files c ++ [arg]) (target c) (include_dirs c) (from_stdin c) (is_doc c))
      else inr 1
  end.
Fixpoint read_args (W : world) (args : list bytes) (c : config) : config + nat :=
  match args with
  | [] => inl c
  | arg :: args' => match read_arg W arg c with inl c' => read_args W args' c' | inr code => inr code end
  end.

(** [bin.rs:98-133] [generate_and_print], from the expanded tree to the text;
    [inr]: the exit code for a target that does not exist. *)
Definition formatted (printable : bytes -> bool) (target : bytes) (doc : bool) (t : tree) (s : state) : res bytes + nat :=
  let source i := snd (nth i (g_sources (x_world s)) ([], [])) in
  if beq target (b "text") then inl (Ok (text_gen t))
  else if beq target (b "sexp") then inl (Ok (sexp_gen printable t))
  else if beq target (b "html") then
    inl (if doc then html_document printable source t else html_gen printable source t)
  else if beq target (b "xml") then inl (if doc then xml_document t else xml_gen t)
  else if beq target (b "css") then inl (if doc then css_document printable t else css_gen printable t)
  else if existsb (beq target) supported_targets then inl (Panic PUnreachable)
  else inr 1.

(** [builder.add_includes(include_dirs.iter())]. *)
Definition with_includes (dirs : list bytes) (E : env) : env :=
  Env (e_order E) (e_unescape E) (e_read E) dirs (e_getenv E) (e_hash E) (e_float E) (e_unsorted E) (e_unlisted E) (e_fixed E) (e_local E)
    (e_time_ok E) (e_date E) (e_parse_date E) (e_parse_naive E) (e_template E) (e_format E) (e_html E) (e_front E)
    (e_yaml E) (e_toml E) (e_glob E).

(** [bin.rs:101-104], [128-131]: [eprintln!] of an error, [exit(1)]. *)
Definition failed (W : world) (i : nat) (e : err) : ending := if w_shows W i e then Exit 1 else Crash PExplicit.

(** [bin.rs:82-95]: the source of a job is a file, or the standard input
    ([crates/seam/src/lib.rs:63-83]); what is printed, and how the program ends.  Texts on
    standard error are not modelled, nor failures of [println!]. *)
Fixpoint run_jobs (W : world) (fuel : nat) (c : config) (i : nat) (jobs : list (option bytes)) : bytes * ending :=
  match jobs with
  | [] => ([], Exit 0)
  | job :: jobs' =>
      let E := with_includes (include_set (include_dirs c)) (w_env W i) in
      let '(path, contents) :=
        match job with Some p => (p, e_read E p) | None => (b "<stdin>", w_stdin W) end in
      match contents with
      | None => ([], Exit 1)
      | Some text =>
          match expand E fuel path text with
          | Ok (t, s) =>
              match formatted (w_printable W) (target c) (is_doc c) t s with
              | inr code => ([], Exit code)
              | inl (Ok generated) =>
                  let '(out, e) := run_jobs W fuel c (S i) jobs' in (generated ++ LF :: out, e)
              | inl (Err e) => ([], failed W i e)
              | inl (Panic p) => ([], Crash p)
              | inl Hang => ([], Forever)
              | inl OutOfFuel => ([], Unfinished)
              end
          | Err e => ([], failed W i e)
          | Panic p => ([], Crash p)
          | Hang => ([], Forever)
          | OutOfFuel => ([], Unfinished)
          end
      end
  end.

(** [bin.rs:20-96] [main]. *)
Definition main (W : world) (fuel : nat) (args : list bytes) : bytes * ending :=
  match read_args W args defaults with
  | inr code => ([], Exit code)
  | inl c =>
      let stdin := match files c with [] => true | _ => from_stdin c end in
      if beq (target c) [] then ([], Exit 1)
      else run_jobs W fuel c 0 ((if stdin then [None] else []) ++ map Some (files c))
  end.
