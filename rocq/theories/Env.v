(** * The world outside the modelled code

    Operating system, external crates, clock and hash seeds.  Every theorem
    quantifies over this record; nothing is assumed about a field except in
    the hypotheses of the theorem. *)

From Coq Require Import String List Ascii Bool NArith ZArith.
From Verif Require Import Text Res.
Import ListNotations.

(** Events of [yaml_rust2] ([expander.rs:1940] [on_event]); [YOther] stands
    for stream and document boundaries, aliases and nothing. *)
Inductive yevent :=
| YScalar (v : bytes) | YMapStart | YMapEnd | YSeqStart | YSeqEnd | YOther.

(** [toml::Value]; numbers that are not integers, dates: already printed. *)
Inductive toml :=
| TomlString (s : bytes) | TomlInt (z : Z) | TomlFloat (printed : bytes)
| TomlDate (printed : bytes) | TomlBool (x : bool)
| TomlArray (l : list toml) | TomlTable (l : list (bytes * toml)).

(** First node of a markdown document ([expander.rs:766-783]). *)
Inductive front := FYaml (text : bytes) | FToml (text : bytes) | FNone.

(** [std::fs::Metadata] as far as [%glob] looks at it. *)
Record meta := Meta {
  is_file : bool; is_dir : bool; created : option Z; modified : option Z
}.

(** A point in time: given in seconds since the epoch, or the current one. *)
Inductive instant := At (secs : Z) | Now.

Record env := Env {
  (* iteration order of the hash map with the given seed and keys *)
  e_order : nat -> list bytes -> list bytes;
  (* [descape] *)
  e_unescape : bytes -> option bytes;
  (* [std::fs::read_to_string] *)
  e_read : bytes -> option bytes;
  (* include directories, in the order of the [BTreeSet] *)
  e_includes : list bytes;
  (* [std::env::var] *)
  e_getenv : bytes -> option bytes;
  (* [DefaultHasher] on what [Hash for Site] feeds it: path of the source,
     line, offset, column, length *)
  e_hash : bytes -> nat -> nat -> nat -> nat -> N;
  (* [str::parse::<f64>]: [None] if it fails, [Some None] for NaN, otherwise
     the rank of the value among all floats *)
  e_float : bytes -> option (option Z);
  (* [slice::sort_by] on elements that compare like this (one row of answers
     per element) where that is no order: [None] if it panics, otherwise which
     of the remaining elements comes next, see [arrange] in Sorting.v *)
  e_unsorted : list (list comparison) -> option (list nat);
  (* a [BTreeSet] into which elements that compare like this were inserted one
     by one where that is neither an order nor always [Less]: how many of them
     it has, and in which order; see [bt_collect] in Sorting.v *)
  e_unlisted : list (list comparison) -> nat * list nat;
  (* [str::parse::<I32F32>], in units of 2^-32 *)
  e_fixed : bytes -> option Z;
  (* offset of local time in seconds *)
  e_local : Z;
  (* [DateTime::from_timestamp(secs, 0)] is [Some] *)
  e_time_ok : Z -> bool;
  (* [time.with_timezone(offset).format(fmt)]; [None]: bad format string *)
  e_date : instant -> Z -> bytes -> option bytes;
  (* [DateTime::parse_from_str] and [NaiveDateTime::parse_from_str] of a
     format and a date, in seconds *)
  e_parse_date : bytes -> bytes -> option Z;
  e_parse_naive : bytes -> bytes -> option Z;
  (* [formatx]: is the template valid; its text for the given positional and
     named values *)
  e_template : bytes -> bool;
  e_format : bytes -> list (option bytes * bytes) -> option bytes;
  (* [markdown] *)
  e_html : bytes -> option bytes;
  e_front : bytes -> option front;
  (* [yaml_rust2]: the events received, and whether parsing succeeded *)
  e_yaml : bytes -> list yevent * bool;
  (* [toml] *)
  e_toml : bytes -> option (list (bytes * toml));
  (* [glob]: [None] for a bad pattern; each entry is a read error, or a path
     with its metadata ([None]: [metadata] fails) *)
  e_glob : bytes -> option (list (option (bytes * option meta)))
}.
