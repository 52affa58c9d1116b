(** * Vocabulary for what expansion preserves *)

From Coq Require Import String List Ascii Bool Arith.
From Verif Require Import Text Lossy Utf8 Res Ast Env Scope State Numbers Parser Spec_tree Spec_tokens.
Import ListNotations.

(** The sources read so far (path and text), and their number. *)
Definition sources : Type := list (bytes * bytes).
Definition srcs (s : state) : sources := g_sources (x_world s).
Definition size (s : state) : nat := length (srcs s).
Definition extends (N M : sources) : Prop := exists l, M = N ++ l.

(** [s'] may come after [s]: the log and the list of sources only grow, every
    counter only increases, and only sources read in between are freed. *)
Record later (s s' : state) : Prop := Later {
  later_log : exists l, g_log (x_world s') = g_log (x_world s) ++ l;
  later_sources : extends (srcs s) (srcs s');
  later_freed : exists l, g_freed (x_world s') = l ++ g_freed (x_world s) /\
    Forall (fun i => size s <= i < size s') l;
  later_seed : g_seed (x_world s) <= g_seed (x_world s');
  later_ordered : g_ordered (x_world s) <= g_ordered (x_world s');
  later_dangling : g_dangling (x_world s) <= g_dangling (x_world s')
}.

(** The kinds of error of the expander itself, in contrast to those of the
    lexer, the parser and the generators. *)
Definition expander_kind (k : ekind) : bool :=
  match k with
  | EArgNamed | EArgExcess | EArgMissing | EArgType | EArgValue | EArgAttribute
  | EBindExpectedList | EBindTooFew | EBindExcess | EBindExcessKeyword
  | EBindPattern | EBindParamsOrder | EBindMultiRest
  | EMatch | EDefine | EIfdef | EInclude | EEmbed | EMarkdown | EYaml | EToml
  | EGet | EDate | ETimestamp | ELog | EEnv | EFormat | ENamespace | EFor
  | EGlob | ERaw | EString | ENumber | ESymbol | EReverse | ESort | EJoin
  | EConcat | EMap | EFilter | ESplat | EList | EStrip | EApply | ELambda
  | EMacroNotFound | EUndefined => true
  | _ => false
  end.

(** Every text, keyword and site in a node has some property. *)
Section Good.
Variable okv : bytes -> Prop.          (* values and keywords *)
Variable okw : bytes -> Prop.          (* whitespace *)
Variable oks : sources -> site -> Prop.    (* sites, given the sources *)
Variable okm : sources -> Prop.            (* sources *)

Definition good_atom (N : sources) (a : atom) : Prop :=
  okv (a_val a) /\ oks N (a_site a) /\ okw (a_ws a).
Fixpoint good (N : sources) (n : node) : Prop :=
  match n with
  | Sym a | Num a | Str a | Raw a => good_atom N a
  | Lst ns st ew es w =>
      fold_right and True (map (good N) ns) /\ oks N st /\ okw ew /\ oks N es /\ okw w
  | Attr k v st w => okv k /\ good N v /\ oks N st /\ okw w
  end.
Definition good_macro (N : sources) (m : macro) : Prop :=
  Forall (good N) (m_params m) /\ Forall (good N) (m_body m).
Definition good_defs (N : sources) (d : scope) : Prop := forall k m, get k d = Some m -> good_macro N m.
(** The lines written by [%log]. *)
Definition good_log (N : sources) (l : list (site * bytes)) : Prop :=
  Forall (fun line => oks N (fst line) /\ okv (snd line)) l.
Definition good_state (s : state) : Prop :=
  (okm (srcs s) /\ good_log (srcs s) (g_log (x_world s))) /\ good_defs (srcs s) (x_defs s).
(** A site in some such sources. *)
Definition good_site (st : site) : Prop := exists N, okm N /\ oks N st.

Fixpoint good_toml (v : toml) : Prop :=
  match v with
  | TomlString s | TomlFloat s | TomlDate s => okv s
  | TomlInt _ | TomlBool _ => True
  | TomlArray l => fold_right and True (map good_toml l)
  | TomlTable l => fold_right and True (map (fun '(k, v) => okv k /\ good_toml v) l)
  end.

(** The properties are closed under the operations of the expander, and hold
    of what comes from outside. *)
Record respected (E : env) : Prop := Respected {
  r_nil : okv []; r_app : forall x y, okv x -> okv y -> okv (x ++ y);
  r_ws : forall w, okw w -> okv w;
  r_w_nil : okw []; r_w_blank : okw (b " ");
  r_nat : forall n, okv (show_nat n); r_int : forall z, okv (show_Z z);
  r_true : okv (b "true"); r_false : okv (b "false"); r_lambda : okv (b "__lambda");
  r_more : forall N M st, extends N M -> oks N st -> oks M st;
  r_read : forall p t, e_read E p = Some t -> okv t;
  r_source : forall N p t, okm N -> e_read E p = Some t -> okm (N ++ [(p, t)]);
  r_parse : forall N path text tree, parse (e_unescape E) (length N) text = Ok tree -> okv text ->
    okm (N ++ [(path, text)]) ->
    Forall (good (N ++ [(path, text)])) tree;
  r_env : forall k v, e_getenv E k = Some v -> okv v;
  r_dash : okv (b "-");
  r_date : forall i o f t, e_date E i o f = Some t -> okv t;
  r_format : forall f l t, e_format E f l = Some t -> okv t;
  r_html : forall x t, e_html E x = Some t -> okv t;
  r_yaml : forall x v, In (YScalar v) (fst (e_yaml E x)) -> okv v;
  r_toml : forall x l, e_toml E x = Some l -> good_toml (TomlTable l);
  r_glob : forall p l q m, e_glob E p = Some l -> In (Some (q, m)) l -> okv (lossy q)
}.
End Good.

(** ** Words used in the statements *)

(** Rust's strings are valid UTF-8; so all text from outside is. *)
Fixpoint toml_texts (v : toml) : list bytes :=
  match v with
  | TomlString s | TomlFloat s | TomlDate s => [s]
  | TomlInt _ | TomlBool _ => []
  | TomlArray l => flat_map toml_texts l
  | TomlTable l => flat_map (fun '(k, v) => k :: toml_texts v) l
  end.
Definition reads_text (E : env) : Prop := forall p t, e_read E p = Some t -> utf8 t.
Record textual (E : env) : Prop := Textual {
  t_read : reads_text E;
  t_unescape : forall t v, utf8 t -> e_unescape E t = Some v -> utf8 v;
  t_env : forall k v, e_getenv E k = Some v -> utf8 v;
  t_date : forall i o f t, e_date E i o f = Some t -> utf8 t;
  t_format : forall f l t, e_format E f l = Some t -> utf8 t;
  t_html : forall x t, e_html E x = Some t -> utf8 t;
  t_yaml : forall x v, In (YScalar v) (fst (e_yaml E x)) -> utf8 v;
  t_toml : forall x l, e_toml E x = Some l -> Forall utf8 (toml_texts (TomlTable l))
}.

(** The sources in use when the main one is [path], [text]: it comes first,
    and the others are the contents of files. *)
Definition read_from (E : env) (path text : bytes) (N : sources) : Prop :=
  exists l, N = (path, text) :: l /\ Forall (fun x => e_read E (fst x) = Some (snd x)) l.

(** A position lies inside the source it names, on character boundaries, and
    its column is exact. *)
Definition points_into (N : sources) (st : site) : Prop :=
  exists path text, nth_error N (s_src st) = Some (path, text) /\ site_ok text st.

(** A position refers to a source whose text is still allocated. *)
Definition live (s : state) (st : site) : Prop :=
  s_src st < size s /\ ~ In (s_src st) (g_freed (x_world s)).

(** All nodes of a macro definition. *)
Definition macro_nodes (m : macro) : list node := m_params m ++ m_body m.

(** [s'] is what remains of [s] when a context copied from it has ended: its
    definitions and invocations are as before, and precisely the sources read
    in between have been freed.  Only the log may have grown. *)
Record ended (s s' : state) : Prop := Ended {
  ended_defs : x_defs s' = x_defs s;
  ended_vec : x_vec s' = x_vec s;
  ended_log : exists l, g_log (x_world s') = g_log (x_world s) ++ l;
  ended_sources : extends (srcs s) (srcs s');
  ended_freed : forall i, In i (g_freed (x_world s')) <->
    In i (g_freed (x_world s)) \/ size s <= i < size s'
}.

(** [n] invocations registered one after the other. *)
Fixpoint pushes (n : nat) (v : vec) : vec :=
  match n with 0 => v | S n' => vec_push (pushes n' v) end.
