(** * Specification of the command line *)

From Coq Require Import String List Ascii Bool Arith Sorting.Sorted.
From Verif Require Import Text Res Ast Env State Paths Format Expander Cli Spec_scope.
Import ListNotations.

(** ** Single arguments *)

Definition occurs (x s : bytes) : Prop := exists a r, s = a ++ x ++ r.
(** [a] and [r] are before and after the first [x] in [s]. *)
Definition first_at (x s a r : bytes) : Prop :=
  s = a ++ x ++ r /\ forall a' r', s = a' ++ x ++ r' -> length a <= length a'.
(** The text after the first [--], up to the next one or the end. *)
Definition long_option (arg opt : bytes) : Prop :=
  exists a r, first_at (b "--") arg a r /\
    ((exists r', first_at (b "--") r opt r') \/ ~ occurs (b "--") r /\ opt = r).

Inductive command :=
| Target (t : bytes) | NoDocument | Version | Include (dir : bytes) | Stdin | Source (file : bytes) | Wrong.

Definition target_names : list bytes := map b ["text"; "sexp"; "html"; "xml"; "css"]%string.
Definition document_options : list bytes := map b ["nodocument"; "nodoc"]%string.

Definition dash (arg : bytes) : Prop := exists r, arg = b "-" ++ r.

Inductive understood (W : world) : bytes -> command -> Prop :=
| u_target arg t : dash arg -> long_option arg t -> In t target_names -> understood W arg (Target t)
| u_nodoc arg t : dash arg -> long_option arg t -> In t document_options -> understood W arg NoDocument
| u_long arg t : dash arg -> long_option arg t -> ~ In t target_names -> ~ In t document_options ->
    understood W arg Wrong
| u_version r : ~ occurs (b "--") (b "-v" ++ r) -> r = [] \/ dash r -> understood W (b "-v" ++ r) Version
| u_include dir : ~ occurs (b "--") (b "-I" ++ dir) -> understood W (b "-I" ++ dir) (Include dir)
| u_stdin : understood W (b "-") Stdin
| u_short arg : dash arg -> ~ occurs (b "--") arg -> arg <> b "-" ->
    (forall r, arg = b "-v" ++ r -> r <> [] /\ ~ dash r) -> (forall r, arg <> b "-I" ++ r) -> understood W arg Wrong
| u_file arg : ~ dash arg -> w_exists W arg = true -> understood W arg (Source arg)
| u_missing arg : ~ dash arg -> w_exists W arg = false -> understood W arg Wrong.

(** ** All of them *)

(** The exit code of an argument that ends the program at once. *)
Definition stops (c : command) : option nat :=
  match c with Version => Some 0 | Wrong => Some 1 | _ => None end.
Definition sources (cs : list command) : list bytes :=
  flat_map (fun c => match c with Source f => [f] | _ => [] end) cs.
Definition dirs_of (cs : list command) : list bytes :=
  flat_map (fun c => match c with Include d => [d] | _ => [] end) cs.
Definition targets_of (cs : list command) : list bytes :=
  flat_map (fun c => match c with Target t => [t] | _ => [] end) cs.
(** What is translated: the standard input if asked for or if there are no
    files; then the files. *)
Definition wants_stdin (cs : list command) : Prop := In Stdin cs \/ sources cs = [].
Definition jobs (cs : list command) (l : list (option bytes)) : Prop :=
  (wants_stdin cs /\ l = None :: map Some (sources cs)) \/ (~ wants_stdin cs /\ l = map Some (sources cs)).
Definition as_document (cs : list command) (doc : bool) : Prop := doc = false <-> In NoDocument cs.
(** Where files are searched: [.] and the directories given, in the order of
    paths; of several names of one directory only the first counts. *)
Definition search_path (cs : list command) (l : list bytes) : Prop :=
  StronglySorted (fun p q => path_cmp p q = Lt) l /\
  forall d, In d l <-> exists before after,
    b "." :: dirs_of cs = before ++ d :: after /\ Forall (fun d' => ~ same_path d' d) before.

(** ** Translation of one source *)

Inductive renders (printable : bytes -> bool) (src : nat -> bytes) (t : tree) : bytes -> bool -> res bytes -> Prop :=
| as_text doc : renders printable src t (b "text") doc (Ok (text_gen t))
| as_sexp doc : renders printable src t (b "sexp") doc (Ok (sexp_gen printable t))
| as_html_document : renders printable src t (b "html") true (html_document printable src t)
| as_html : renders printable src t (b "html") false (html_gen printable src t)
| as_xml_document : renders printable src t (b "xml") true (xml_document t)
| as_xml : renders printable src t (b "xml") false (xml_gen t)
| as_css_document : renders printable src t (b "css") true (css_document printable t)
| as_css : renders printable src t (b "css") false (css_gen printable t).

(** The path shown in errors, and the text. *)
Definition source_of (W : world) (E : env) (job : option bytes) : bytes * option bytes :=
  match job with Some p => (p, e_read E p) | None => (b "<stdin>", w_stdin W) end.

(** The n-th job gives [r]; [None]: its source cannot be read. *)
Inductive translates (W : world) (fuel : nat) (t : bytes) (doc : bool) (path : list bytes) (n : nat) (job : option bytes)
  : option (res bytes) -> Prop :=
| t_unread name : source_of W (w_env W n) job = (name, None) -> translates W fuel t doc path n job None
| t_fails name text r : source_of W (w_env W n) job = (name, Some text) ->
    expand (with_includes path (w_env W n)) fuel name text = r -> (forall x, r <> Ok x) ->
    translates W fuel t doc path n job (Some (rmap (fun _ => []) r))
| t_renders name text tree s r : source_of W (w_env W n) job = (name, Some text) ->
    expand (with_includes path (w_env W n)) fuel name text = Ok (tree, s) ->
    renders (w_printable W) (fun i => snd (nth i (g_sources (x_world s)) ([], []))) tree t doc r ->
    translates W fuel t doc path n job (Some r).

(** An error is reported and the program gives up; if the report cannot be
    written, it panics. *)
Definition ends (W : world) (n : nat) (r : option (res bytes)) : option ending :=
  match r with
  | Some (Ok _) => None
  | None => Some (Exit 1)
  | Some (Err e) => Some (if w_shows W n e then Exit 1 else Crash PExplicit)
  | Some (Panic p) => Some (Crash p)
  | Some Hang => Some Forever
  | Some OutOfFuel => Some Unfinished
  end.

(** The jobs from the n-th: each text is printed on lines of its own, until
    one fails. *)
Inductive prints (W : world) (fuel : nat) (t : bytes) (doc : bool) (path : list bytes) :
  nat -> list (option bytes) -> bytes -> ending -> Prop :=
| p_done n : prints W fuel t doc path n [] [] (Exit 0)
| p_next n job l text out e : translates W fuel t doc path n job (Some (Ok text)) ->
    prints W fuel t doc path (S n) l out e -> prints W fuel t doc path n (job :: l) (text ++ [LF] ++ out) e
| p_fail n job l r e : translates W fuel t doc path n job r -> ends W n r = Some e ->
    prints W fuel t doc path n (job :: l) [] e.
