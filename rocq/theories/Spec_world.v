(** * Specification: dates, time zones, listings of files *)

From Coq Require Import String List Ascii Bool Arith NArith ZArith Sorted.
From Verif Require Import Text Lossy Res Ast Env State Numbers Args Paths Sorting Spec_args Spec_scope Spec_expand Spec_builtin Spec_control Spec_sort Expander.
Import ListNotations.

(** ** Time zones *)

(** An offset given in units of 2^-32 hours is turned into the nearest whole
    number of seconds, half seconds away from zero. *)
Definition nearest_second (hours seconds : Z) : Prop :=
  let exact := (3600 * hours)%Z in
  (2 * Z.abs (seconds * 2 ^ 32 - exact) <= 2 ^ 32)%Z /\
  ((2 * Z.abs (seconds * 2 ^ 32 - exact))%Z = (2 ^ 32)%Z ->
   (Z.abs exact < Z.abs (seconds * 2 ^ 32))%Z).

(** The product and its rounding are representable: the fixed-point type has
    31 bits before the point. *)
Definition representable (hours : Z) : Prop :=
  (- 2 ^ 63 <= 3600 * hours < 2 ^ 63 - 2 ^ 31)%Z.

(** [hours] represents the decimal [m / 10^k] as well as possible. *)
Definition nearest_fixed (m : Z) (k : nat) (hours : Z) : Prop :=
  (2 * Z.abs (hours * 10 ^ Z.of_nat k - m * 2 ^ 32) <= 10 ^ Z.of_nat k)%Z.

(** Less than a day. *)
Definition within_day (seconds : Z) : Prop := (Z.abs seconds < 86400)%Z.

(** ** Listings *)

Definition wanted (t : path_type) (m : meta) : bool :=
  match t with OnlyFiles => is_file m | OnlyDirs => is_dir m | AnyPath => true end.

(** The paths found, in the order in which the file system gives them; [None]
    if it fails. *)
Fixpoint all_found (l : list (option (bytes * option meta))) : option (list found) :=
  match l with
  | [] => Some []
  | Some (p, Some m) :: l' => option_map (cons (Found p m)) (all_found l')
  | _ => None
  end.
Definition listing (t : path_type) (l : list found) : list found :=
  filter (fun f => wanted t (f_meta f)) l.

(** The order belonging to each key.  Ties are broken by name: the order of
    paths compares component by component. *)
Definition name_before (x y : found) : Prop := path_cmp (f_path x) (f_path y) = Lt.
Definition newer (time : meta -> option Z) (x y : found) : Prop :=
  exists tx ty, time (f_meta x) = Some tx /\ time (f_meta y) = Some ty /\
    ((tx > ty)%Z \/ (tx = ty /\ name_before x y)).
Definition extension_before (x y : found) : Prop :=
  match extension (f_path x), extension (f_path y) with
  | None, Some _ => True
  | Some e, Some e' => bytes_cmp e e' = Lt
  | _, None => False
  end.
Definition before (k : sort_key) (x y : found) : Prop :=
  match k with
  | ByModified => newer modified x y
  | ByCreated => newer created x y
  | ByName => name_before x y
  | ByType =>
      (is_dir (f_meta x) = true /\ is_dir (f_meta y) = false) \/
      (is_dir (f_meta x) = is_dir (f_meta y) /\
       (extension_before x y \/
        (extension (f_path x) = extension (f_path y) /\ name_before x y)))
  | ByNone => False
  end.

(** What the order needs to know about an entry is known. *)
Definition comparable (k : sort_key) (x : found) : Prop :=
  match k with
  | ByModified => modified (f_meta x) <> None
  | ByCreated => created (f_meta x) <> None
  | ByType => is_file (f_meta x) = negb (is_dir (f_meta x))
  | ByName | ByNone => True
  end.

(** The result of comparing any two entries, even if that is unknown: then the
    first is said to be less, whichever that is. *)
Inductive time_key : sort_key -> (meta -> option Z) -> Prop :=
| key_modified : time_key ByModified modified
| key_created : time_key ByCreated created.
Inductive compared : sort_key -> found -> found -> comparison -> Prop :=
| compared_newer k time x y tx ty :
    time_key k time -> time (f_meta x) = Some tx -> time (f_meta y) = Some ty -> (tx > ty)%Z ->
    compared k x y Lt
| compared_older k time x y tx ty :
    time_key k time -> time (f_meta x) = Some tx -> time (f_meta y) = Some ty -> (tx < ty)%Z ->
    compared k x y Gt
| compared_same_time k time x y t :
    time_key k time -> time (f_meta x) = Some t -> time (f_meta y) = Some t ->
    compared k x y (path_cmp (f_path x) (f_path y))
| compared_no_time k time x y :
    time_key k time -> time (f_meta x) = None \/ time (f_meta y) = None -> compared k x y Lt
| compared_name x y : compared ByName x y (path_cmp (f_path x) (f_path y))
| compared_dir x y :
    is_dir (f_meta x) = true -> is_file (f_meta y) = true -> compared ByType x y Lt
| compared_file x y :
    is_file (f_meta x) = true -> is_dir (f_meta y) = true -> ~ (is_dir (f_meta x) = true /\ is_file (f_meta y) = true) ->
    compared ByType x y Gt
| compared_extension x y e :
    ~ (is_dir (f_meta x) = true /\ is_file (f_meta y) = true) ->
    ~ (is_file (f_meta x) = true /\ is_dir (f_meta y) = true) ->
    extension (f_path x) = None -> extension (f_path y) = Some e -> compared ByType x y Lt
| compared_no_extension x y e :
    ~ (is_dir (f_meta x) = true /\ is_file (f_meta y) = true) ->
    ~ (is_file (f_meta x) = true /\ is_dir (f_meta y) = true) ->
    extension (f_path x) = Some e -> extension (f_path y) = None -> compared ByType x y Gt
| compared_extensions x y e e' :
    ~ (is_dir (f_meta x) = true /\ is_file (f_meta y) = true) ->
    ~ (is_file (f_meta x) = true /\ is_dir (f_meta y) = true) ->
    extension (f_path x) = Some e -> extension (f_path y) = Some e' -> e <> e' ->
    compared ByType x y (bytes_cmp e e')
| compared_same_extension x y :
    ~ (is_dir (f_meta x) = true /\ is_file (f_meta y) = true) ->
    ~ (is_file (f_meta x) = true /\ is_dir (f_meta y) = true) ->
    extension (f_path x) = extension (f_path y) ->
    compared ByType x y (path_cmp (f_path x) (f_path y))
| compared_none x y : compared ByNone x y Lt.
Definition compares_by (k : sort_key) (cmp : found -> found -> comparison) : Prop :=
  forall x y, compared k x y (cmp x y).

(** What a sorted set has after the elements of [l] were inserted one by one.
    If they can be ordered, then of elements that compare equal the first
    stays. *)
Definition first_of_kind {A} (cmp : A -> A -> comparison) (l : list A) (x : A) : Prop :=
  exists l1 l2, l = l1 ++ x :: l2 /\ forall y, In y l1 -> cmp y x <> Eq.
Definition all_less {A} (cmp : A -> A -> comparison) (l : list A) : Prop :=
  forall x y, In x l -> In y l -> cmp x y = Lt.
Inductive collected {A} (E : env) (cmp : A -> A -> comparison) (l : list A) : list A -> Prop :=
| collected_sorted out :
    preorder cmp l -> StronglySorted (fun x y => cmp x y = Lt) out ->
    (forall x, In x out <-> first_of_kind cmp l x) -> collected E cmp l out
| collected_reverse : all_less cmp l -> collected E cmp l (rev l)
| collected_somehow m ks l' :
    ~ preorder cmp l -> ~ all_less cmp l -> e_unlisted E (answers cmp l) = (m, ks) -> picked ks l l' ->
    collected E cmp l (firstn m l').

(** The values of the options [type] and [sort]. *)
Definition type_named (s : bytes) : path_type :=
  if beq s (b "file") then OnlyFiles else if beq s (b "directory") then OnlyDirs else AnyPath.
Definition key_named (s : bytes) : sort_key :=
  if beq s (b "modified") then ByModified else if beq s (b "created") then ByCreated
  else if beq s (b "name") then ByName else if beq s (b "type") then ByType else ByNone.

(** The nodes of a listing.  A path that is no text is shown as far as it is
    legible ([Spec_lossy.Legible], [c73_legible]). *)
Definition path_nodes (st : site) (fs : list found) : list node :=
  match fs with
  | [] => []
  | f :: fs' => Str (Atom (lossy (f_path f)) st []) :: map (fun f => Str (Atom (lossy (f_path f)) st (b " "))) fs'
  end.

(** ** %date and %timestamp *)

(** The offset to be used, given the option [timezone]. *)
Inductive zone (E : env) : option atom -> res Z -> Prop :=
| zone_local : zone E None (Ok (e_local E))
| zone_bad a : e_fixed E (a_val a) = None -> zone E (Some a) (Err (EErr EDate (a_site a)))
| zone_overflow a h : e_fixed E (a_val a) = Some h -> ~ representable h ->
    zone E (Some a) (Panic POverflow)
| zone_ok a h secs : e_fixed E (a_val a) = Some h -> representable h -> nearest_second h secs ->
    zone E (Some a) (Ok secs).

(** The text of an instant; [zst] is the site to be blamed for the offset. *)
Inductive dated (E : env) (fmt : bytes) (off : Z) (zst : site) : list atom -> res bytes -> Prop :=
| dated_now text : within_day off -> e_date E Now off fmt = Some text ->
    dated E fmt off zst [] (Ok text)
| dated_at t secs text : within_day off -> parse_i64 (a_val t) = Some secs -> e_time_ok E secs = true ->
    e_date E (At secs) off fmt = Some text -> dated E fmt off zst [t] (Ok text)
| dated_format_now : within_day off -> e_date E Now off fmt = None ->
    dated E fmt off zst [] (Panic PUnwrap)
| dated_format_at t secs : within_day off -> parse_i64 (a_val t) = Some secs -> e_time_ok E secs = true ->
    e_date E (At secs) off fmt = None -> dated E fmt off zst [t] (Panic PUnwrap)
| dated_bad t : (forall secs, parse_i64 (a_val t) = Some secs -> e_time_ok E secs = false) ->
    dated E fmt off zst [t] (Err (EErr EDate (a_site t)))
| dated_day_now : ~ within_day off -> dated E fmt off zst [] (Err (EErr EDate zst))
| dated_day_at t secs : ~ within_day off -> parse_i64 (a_val t) = Some secs -> e_time_ok E secs = true ->
    dated E fmt off zst [t] (Err (EErr EDate zst)).

(** The seconds of a date; one without a zone is taken to be in the zone
    given, and is later in UTC the further west that is. *)
Inductive timed (E : env) (fmt date : bytes) (off : Z) (st zst : site) : res Z -> Prop :=
| timed_zoned t : within_day off -> e_parse_date E fmt date = Some t -> timed E fmt date off st zst (Ok t)
| timed_local t : within_day off -> e_parse_date E fmt date = None -> e_parse_naive E fmt date = Some t ->
    e_time_ok E (t - off)%Z = true -> timed E fmt date off st zst (Ok (t - off)%Z)
| timed_bad : within_day off -> e_parse_date E fmt date = None ->
    (forall t, e_parse_naive E fmt date = Some t -> e_time_ok E (t - off)%Z = false) ->
    timed E fmt date off st zst (Err (EErr ETimestamp st))
| timed_day : ~ within_day off -> timed E fmt date off st zst (Err (EErr EDate zst)).

(** ** The macros *)

(** The option [timezone]; the site to be blamed for the offset. *)
Definition zone_given (vs : list node) : option atom :=
  match keyword_value (b "timezone") vs with Some v => atomic v | None => None end.
Definition zone_site (n : node) (vs : list node) : site :=
  match zone_given vs with Some a => a_site a | None => node_site n end.

(** The arguments of %date: a format and at most one time. *)
Definition dating (vs : list node) (fmt : bytes) (time : list atom) : Prop :=
  exists f a, positionals vs = f :: map Num time /\ length time <= 1 /\ atomic f = Some a /\ a_val a = fmt /\
    options vs (fun k v => k = b "timezone" /\ exists a, v = Num a).
(** The arguments of %timestamp: a format and a date. *)
Definition timing (vs : list node) (fmt date : bytes) : Prop :=
  exists f d a a', positionals vs = [f; d] /\ atomic f = Some a /\ atomic d = Some a' /\
    a_val a = fmt /\ a_val a' = date /\
    options vs (fun k v => k = b "timezone" /\ exists a, v = Num a).
(** The arguments of %glob: a pattern, which paths are wanted, the sort key,
    and whether the order is ascending. *)
Definition listing_args (vs : list node) (pat : atom) (t : path_type) (k : sort_key) (ascending : bool) : Prop :=
  exists p, positionals vs = [p] /\ atomic p = Some pat /\
    options vs (fun k v => (k = b "type" /\ text_among [b "file"; b "directory"; b "any"] v) \/
      (k = b "sort" /\ text_among [b "modified"; b "created"; b "name"; b "type"; b "none"] v) \/
      (k = b "order" /\ text_among [b "ascending"; b "descending"] v)) /\
    t = type_named (chosen (b "type") (b "any") vs) /\
    k = key_named (chosen (b "sort") (b "none") vs) /\
    ascending = beq (chosen (b "order") (b "ascending") vs) (b "ascending").

(** What remains to be done with the text or number of seconds. *)
Definition answers {A} (make : A -> node) (s' : state) (q : res A) (r : out) : Prop :=
  match q with Ok x => r = Ok ([make x], s') | _ => fails q r end.
