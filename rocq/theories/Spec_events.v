(** * Specification: what any stream of YAML events gives

    For documents in which all keys are scalars this is said more simply in
    Spec_data.v.  Here are all streams: with aliases, with collections as
    keys, with several documents, cut short, and even ill-nested ones. *)

From Coq Require Import String List Ascii Bool Arith.
From Verif Require Import Text Res Ast Env Scope State Numbers Spec_expand Spec_bind Spec_data.
Import ListNotations.

(** ** Streams *)

Inductive nest := Mapping | Sequence.
(** Whatever ends a collection may end either kind; all other events, among
    them aliases, are alike. *)
Inductive entry := Scalar (v : bytes) | Other | Nested (k : nest) (l : list entry) (last : nest).
Definition opening (k : nest) : yevent := match k with Mapping => YMapStart | Sequence => YSeqStart end.
Definition closing (k : nest) : yevent := match k with Mapping => YMapEnd | Sequence => YSeqEnd end.
Fixpoint stream (x : entry) : list yevent :=
  match x with
  | Scalar v => [YScalar v]
  | Other => [YOther]
  | Nested k l last => opening k :: flat_map stream l ++ [closing last]
  end.
Notation streams := (flat_map stream).

(** ** Meaning *)

(** Where an entry is: in a collection or, with [None], in none. *)
Notation place := (option nest).

(** What came before it there: a key waiting for its value; the names of the
    collections around; nodes; and the definitions so far. *)
Record spot := Spot {
  p_key : option bytes;
  p_names : list bytes;
  p_done : list node;
  p_defs : scope
}.

Section Events.
Variable sep : bytes.
Variable st : site.

(** The name of a value there. *)
Definition named (p : place) (s : spot) : option bytes :=
  match p with
  | None => None
  | Some Mapping => p_key s
  | Some Sequence => Some (show_nat (length (p_done s)))
  end.

Definition lead (l : list node) : bytes := match l with [] => [] | _ => b " " end.
Definition string_of (w v : bytes) : node := Str (Atom v st w).
Definition list_of_all (w : bytes) (l : list node) : node := Lst l st [] st w.

(** A value becomes an attribute in a mapping and an element elsewhere; in
    both cases it is defined. *)
Definition labelled (p : place) (name : bytes) (done : list node) (v : bytes -> node) : node :=
  match p with
  | Some Mapping => Attr name (v (b " ")) st (lead done)
  | _ => v (lead done)
  end.
Definition recorded (names : list bytes) (name : bytes) (v : node) (d : scope) : scope :=
  put (join sep (names ++ [name])) (variable [v]) d.

(** Inside a new collection. *)
Definition opened (p : place) (s : spot) : spot :=
  Spot None (match named p s with Some n => p_names s ++ [n] | None => p_names s end) [] (p_defs s).

(** A finished collection takes its name from the end of the list of names:
    which is not its own if it is a key. *)
Inductive Entry : place -> spot -> entry -> res spot -> Prop :=
| en_other p s : Entry p s Other (Ok s)
| en_key s v : p_key s = None ->
    Entry (Some Mapping) s (Scalar v) (Ok (Spot (Some v) (p_names s) (p_done s) (p_defs s)))
| en_scalar p s v name : named p s = Some name ->
    Entry p s (Scalar v)
      (Ok (Spot None (p_names s) (p_done s ++ [labelled p name (p_done s) (fun w => string_of w v)])
             (recorded (p_names s) name (string_of (b " ") v) (p_defs s))))
| en_document s v :
    Entry None s (Scalar v) (Ok (Spot None (p_names s) (p_done s ++ [string_of (lead (p_done s)) v]) (p_defs s)))
| en_nested p s k l last s' names name :
    Entries (Some k) (opened p s) l (Ok s') -> p_names s' = names ++ [name] ->
    Entry p s (Nested k l last)
      (Ok (Spot None names (p_done s ++ [labelled p name (p_done s) (fun w => list_of_all w (p_done s'))])
             (recorded names name (list_of_all (lead (p_done s)) (p_done s')) (p_defs s'))))
| en_nameless p s k l last s' :
    Entries (Some k) (opened p s) l (Ok s') -> p_names s' = [] -> p <> Some Mapping ->
    Entry p s (Nested k l last)
      (Ok (Spot None [] (p_done s ++ [list_of_all (lead (p_done s)) (p_done s')]) (p_defs s')))
| en_panics s k l last s' :
    Entries (Some k) (opened (Some Mapping) s) l (Ok s') -> p_names s' = [] ->
    Entry (Some Mapping) s (Nested k l last) (Panic PUnwrap)
| en_inside p s k l last q :
    Entries (Some k) (opened p s) l (Panic q) -> Entry p s (Nested k l last) (Panic q)
with Entries : place -> spot -> list entry -> res spot -> Prop :=
| ens_nil p s : Entries p s [] (Ok s)
| ens_cons p s x l s' r : Entry p s x (Ok s') -> Entries p s' l r -> Entries p s (x :: l) r
| ens_panic p s x l q : Entry p s x (Panic q) -> Entries p s (x :: l) (Panic q).

(** A collection ended before it began: everything so far is put into a list. *)
Inductive Excess (s : spot) : spot -> Prop :=
| ex_named names name : p_names s = names ++ [name] ->
    Excess s (Spot None names [list_of_all [] (p_done s)] (recorded names name (list_of_all [] (p_done s)) (p_defs s)))
| ex_nameless : p_names s = [] -> Excess s (Spot None [] [list_of_all [] (p_done s)] (p_defs s)).

(** Events that may break off inside of collections. *)
Inductive Stream : place -> spot -> list yevent -> res spot -> Prop :=
| st_all p s l s' : Entries p s l (Ok s') -> Stream p s (streams l) (Ok s')
| st_open p s l s' k es r : Entries p s l (Ok s') -> Stream (Some k) (opened p s') es r ->
    Stream p s (streams l ++ opening k :: es) r
| st_excess s l s1 s2 k es r : Entries None s l (Ok s1) -> Excess s1 s2 -> Stream None s2 es r ->
    Stream None s (streams l ++ closing k :: es) r
| st_panic p s l es q : Entries p s l (Panic q) -> Stream p s (streams l ++ es) (Panic q).
End Events.

(** ** Documents *)

(** What a text gives: its nodes or an error, and the definitions it leaves in
    both cases; or a panic. *)
Inductive YamlText (E : env) (text sep : bytes) (st : site) (d : scope) : res (res (list node) * scope) -> Prop :=
| yt_reads es s : e_yaml E text = (es, true) -> Stream sep st None (Spot None [] [] d) es (Ok s) ->
    YamlText E text sep st d (Ok (Ok (p_done s), p_defs s))
| yt_breaks es s : e_yaml E text = (es, false) -> Stream sep st None (Spot None [] [] d) es (Ok s) ->
    YamlText E text sep st d (Ok (Err (EErr EYaml st), p_defs s))
| yt_panics es ok q : e_yaml E text = (es, ok) -> Stream sep st None (Spot None [] [] d) es (Panic q) ->
    YamlText E text sep st d (Panic q).

(** The named values of a TOML document, with their paths; unlike in [parts]
    of Spec_data.v, with the whitespace that they have when defined. *)
Definition below (k : bytes) (l : list (list bytes * node)) : list (list bytes * node) :=
  map (fun '(p, v) => (k :: p, v)) l.
Section Values.
Variable st : site.
Fixpoint values_in (d : data) : list (list bytes * node) :=
  match d with
  | Leaf _ _ => []
  | Table l => flat_map (fun '(k, x) => below k (values_in x) ++ [([k], data_node st (b " ") x)]) l
  | Array l =>
      (fix from (i : nat) (l : list data) : list (list bytes * node) :=
         match l with
         | [] => []
         | x :: l' =>
             (below (show_nat i) (values_in x) ++
              [([show_nat i], data_node st (match i with 0 => [] | _ => b " " end) x)]) ++ from (S i) l'
         end) 0 l
  end.
End Values.

Inductive TomlText (E : env) (text sep : bytes) (st : site) (d : scope) : res (list node) * scope -> Prop :=
| tt_reads t (x := toml_data (TomlTable t)) :
    e_toml E text = Some t ->
    TomlText E text sep st d
      (Ok [data_node st [] x], assign (map (fun '(p, v) => (join sep p, [v])) (values_in st x)) d)
| tt_breaks : e_toml E text = None -> TomlText E text sep st d (Err (EErr EToml st), d).

(** What the call [n] gives, if reading a document gave [q]. *)
Definition comes_of (E : env) (n : node) (s s1 : state) (q : res (res (list node) * scope)) : Prop :=
  match q with
  | Ok (Ok ns, d) => exists s', eval E n s (Ok (ns, s')) /\ x_defs s' = d /\ quiet s1 s'
  | Ok (Err e, _) | Err e => eval E n s (Err e)
  | Ok (Panic p, _) | Panic p => eval E n s (Panic p)
  | Ok (Hang, _) | Hang => eval E n s Hang
  | Ok (OutOfFuel, _) | OutOfFuel => False
  end.
