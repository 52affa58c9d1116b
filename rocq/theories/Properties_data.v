(** * Properties of imported data, dates and listings (C39, C40, C45, C46, C54) *)

From Coq Require Import String List Ascii Bool Arith NArith ZArith Permutation Sorting.Sorted.
From Verif Require Import Text Res Ast Env Scope State Args Bind Numbers Paths Sorting Expander
  Spec_args Spec_bind Spec_expand Spec_builtin Spec_scope Spec_sort Spec_data Spec_world Spec_events
  Proofs_eval Proofs_data Proofs_world Proofs_import Proofs_events Proofs_stream Conformance Runs.
Import ListNotations.

(** ** C39: %yaml and %json *)

(** For every document [d] whose keys are scalars and which has no aliases,
    the macro gives its tree and defines its parts; nothing else changes. *)
Theorem c39_document : forall E name args n s vs s1 text sep d,
  name = b "yaml" \/ name = b "json" -> is_call name args n ->
  evals E (received args) (entered n s) (Ok (vs, s1)) -> imported vs text sep -> yaml_reads E text d ->
  exists s', eval E n s (Ok ([data_node (node_site n) [] d], s')) /\
    imports sep (node_site n) d (x_defs s1) (x_defs s') /\ quiet s1 s'.
Proof. exact yaml_import. Qed.
Print Assumptions c39_document.

(** The parts that are defined are the values at all non-empty paths. *)
Theorem c39_parts : forall d p y, In (p, y) (parts d) <-> p <> [] /\ value_at d p y.
Proof. exact parts_iff. Qed.
Print Assumptions c39_parts.

(** The definition of each path is the value there, if no table has a key
    twice and the separator, a single byte and not a digit, occurs in no key. *)
Theorem c39_defined : forall c st d defs defs' p y, imports [c] st d defs defs' ->
  distinct_keys d -> digit c = None -> keys_without c d ->
  value_at d p y -> p <> [] ->
  exists w, get (join [c] p) defs' = Some (variable [data_node st w y]).
Proof. exact imports_value. Qed.
Print Assumptions c39_defined.

(** Only paths are defined. *)
Theorem c39_only : forall sep st d defs defs' name, imports sep st d defs defs' ->
  (forall p y, value_at d p y -> p <> [] -> join sep p <> name) -> get name defs' = get name defs.
Proof. exact imports_other. Qed.
Print Assumptions c39_only.

(** The same value is what [%get] finds in the tree at that path. *)
Theorem c39_get : forall st d, distinct_keys d -> no_index_keys d -> forall p y w, value_at d p y ->
  exists w', reaches p (data_node st w d) (data_node st w' y).
Proof. exact value_at_reaches. Qed.
Print Assumptions c39_get.

(** A syntax error in the text is an error. *)
Theorem c39_syntax : forall E name args n s vs s1 text sep,
  name = b "yaml" \/ name = b "json" -> is_call name args n ->
  evals E (received args) (entered n s) (Ok (vs, s1)) -> imported vs text sep -> yaml_breaks E text ->
  eval E n s (Err (EErr EYaml (node_site n))).
Proof. exact yaml_error. Qed.
Print Assumptions c39_syntax.

(** A mapping or sequence as a key of the outermost mapping: panic. *)
Theorem c39_key_panics : forall E name args n s vs s1 text sep es ok l key rest,
  name = b "yaml" \/ name = b "json" -> is_call name args n ->
  evals E (received args) (entered n s) (Ok (vs, s1)) -> imported vs text sep ->
  e_yaml E text = (es, ok) ->
  content es = YMapStart :: flat_map (fun '(k, x) => YScalar k :: events x) l ++ events key ++ rest ->
  texts_only (Table l) = true -> texts_only key = true -> (forall k v, key <> Leaf k v) ->
  eval E n s (Panic PUnwrap).
Proof. exact yaml_panic. Qed.
Print Assumptions c39_key_panics.

(** Examples: "a: {b: x, c: [y, z]}"; "a: x" cut short; "{[k]: v}";
    "[{[k]: v}]"; "{a: {b: 1}, a/b: 2}". *)
Definition c39_text v := Leaf LText (b v).
Definition c39_tree : data :=
  Table [(b "a", Table [(b "b", c39_text "x"); (b "c", Array [c39_text "y"; c39_text "z"])])].
Definition c39_env : env := docs
  [(b "doc", (YOther :: events c39_tree ++ [YOther], true));
   (b "cut", ([YOther; YMapStart; YScalar (b "a")], false));
   (b "key", ([YMapStart; YSeqStart; YScalar (b "k"); YSeqEnd; YScalar (b "v"); YMapEnd], true));
   (b "deep", ([YSeqStart; YMapStart; YSeqStart; YScalar (b "k"); YSeqEnd; YScalar (b "v"); YMapEnd; YSeqEnd], true));
   (b "same", (events (Table [(b "a", Table [(b "b", c39_text "1")]); (b "a/b", c39_text "2")]), true))]
  [] [] [].
Example c39_example :
  yields c39_env (b "(%yaml ""doc"") %a/b %a/c/0 %a/c/1 (%get c/1 %a)")
    (b "(:a (:b ""x"" :c (""y"" ""z""))) ""x"" ""y"" ""z"" ""z""") /\
  yields c39_env (b "(%json ""doc"" :separator .) %a.c %a.c.1") (b "(:a (:b ""x"" :c (""y"" ""z""))) (""y"" ""z"") ""z""") /\
  rejects c39_env (b "(%yaml ""cut"")") EYaml /\
  panics c39_env (b "(%yaml ""key"")") PUnwrap.
Proof. runs. Qed.
Example c39_reads : yaml_reads c39_env (b "doc") c39_tree /\ yaml_breaks c39_env (b "cut").
Proof.
  split.
  - exists (YOther :: events c39_tree ++ [YOther]). repeat split.
  - exists [YOther; YMapStart; YScalar (b "a")], [YScalar []; YMapEnd], (Table [(b "a", c39_text "")]). repeat split.
Qed.
Example c39_clean : distinct_keys c39_tree /\ keys_without "/"%char c39_tree /\ no_index_keys c39_tree /\
  value_at c39_tree [b "a"; b "c"; b "1"] (c39_text "z").
Proof.
  split; [|split; [|split]].
  - cbn. repeat (split || constructor); cbn; intuition discriminate.
  - cbn. repeat split; cbn; intuition discriminate.
  - cbn. repeat split.
  - eapply at_key; [left; reflexivity|]. eapply at_key; [right; left; reflexivity|].
    apply (at_index _ 1 (c39_text "z")); [reflexivity|constructor].
Qed.
(** In a mapping inside a sequence there is no panic: the key becomes the
    value of the name of the mapping, and its value is lost. *)
Example c39_deep_key : yields c39_env (b "(%yaml ""deep"") %0") (b "((:0 (""k""))) (""k"")").
Proof. shows. Qed.
(** Without the condition on keys two paths have the same name; the last one
    wins. *)
Example c39_collision : yields c39_env (b "(%yaml ""same"") %a/b") (b "(:a (:b ""1"") :a/b ""2"") ""2""").
Proof. shows. Qed.

(** Any stream of events, also with aliases, collections as keys, several
    documents, or cut short, gives what Spec_events.v says; and that is one
    thing. *)
Theorem c39_stream : forall E name args n s vs s1 text sep q,
  name = b "yaml" \/ name = b "json" -> is_call name args n ->
  evals E (received args) (entered n s) (Ok (vs, s1)) -> imported vs text sep ->
  YamlText E text sep (node_site n) (x_defs s1) q -> comes_of E n s s1 q.
Proof. exact yaml_stream. Qed.
Print Assumptions c39_stream.
Theorem c39_every : forall E text sep st d, exists! q, YamlText E text sep st d q.
Proof. exact yaml_every. Qed.
Print Assumptions c39_every.

(** "{a: {[k]: *x}, b: y}": the key takes the name of the mapping that it is
    in; the mapping has none left. *)
Definition c39_stray := [Nested Mapping [Scalar (b "a"); Nested Mapping [Nested Sequence [Scalar (b "k")] Sequence; Other] Mapping] Mapping].
Example c39_key_name sep st d : exists v,
  Entries sep st (Some Mapping) (Spot None [b "a"] [] d) [Nested Sequence [Scalar (b "k")] Sequence; Other]
    (Ok (Spot None [] [Attr (b "a") v st []] (recorded sep [] (b "a") (list_of_all st [] [string_of st [] (b "k")])
       (recorded sep [b "a"] (b "0") (string_of st (b " ") (b "k")) d)))).
Proof.
  exists (list_of_all st (b " ") [string_of st [] (b "k")]).
  eapply ens_cons; [|eapply ens_cons; [apply en_other|apply ens_nil]].
  refine (en_nested sep st (Some Mapping) (Spot None [b "a"] [] d) Sequence [Scalar (b "k")] Sequence
    (Spot None [b "a"] [string_of st [] (b "k")] (recorded sep [b "a"] (b "0") (string_of st (b " ") (b "k")) d)) [] (b "a") _ _).
  - eapply ens_cons; [exact (en_scalar sep st (Some Sequence) (Spot None [b "a"] [] d) (b "k") (b "0") eq_refl)|apply ens_nil].
  - reflexivity.
Qed.
Example c39_streams sep st d (E := docs [(b "stray", (streams c39_stray, true)); (b "excess", ([YScalar (b "x"); YMapEnd], true));
    (b "open", ([YSeqStart; YScalar (b "x")], true)); (b "two", ([YScalar (b "x"); YOther; YScalar (b "y")], true))] [] [] []) :
  YamlText E (b "stray") sep st d (Panic PUnwrap) /\
  YamlText E (b "excess") sep st d (Ok (Ok [list_of_all st [] [string_of st [] (b "x")]], d)) /\
  YamlText E (b "open") sep st d (Ok (Ok [string_of st [] (b "x")], put (b "0") (variable [string_of st (b " ") (b "x")]) d)) /\
  YamlText E (b "two") sep st d (Ok (Ok [string_of st [] (b "x"); string_of st (b " ") (b "y")], d)).
Proof. repeat split; apply yaml_text_iff; reflexivity. Qed.

(** ** C40: %toml *)

Theorem c40_document : forall E args n s vs s1 text sep d,
  is_call (b "toml") args n ->
  evals E (received args) (entered n s) (Ok (vs, s1)) -> imported vs text sep -> toml_reads E text d ->
  exists s', eval E n s (Ok ([data_node (node_site n) [] d], s')) /\
    imports sep (node_site n) d (x_defs s1) (x_defs s') /\ quiet s1 s'.
Proof. exact toml_import. Qed.
Print Assumptions c40_document.

(** Every path to a value is defined as exactly that value. *)
Theorem c40_defined : forall E args n s vs s1 text c d,
  is_call (b "toml") args n ->
  evals E (received args) (entered n s) (Ok (vs, s1)) -> imported vs text [c] -> toml_reads E text d ->
  distinct_keys d -> digit c = None -> keys_without c d ->
  exists s', eval E n s (Ok ([data_node (node_site n) [] d], s')) /\
    forall p y, value_at d p y -> p <> [] ->
      exists w, get (join [c] p) (x_defs s') = Some (variable [data_node (node_site n) w y]).
Proof.
  intros E args n s vs s1 text c d C V I R D G K.
  destruct (toml_import E args n s vs s1 text [c] d C V I R) as [s' [A [B _]]]. exists s'. split; [exact A|].
  intros p y P N. exact (imports_value c _ d _ _ p y B D G K P N).
Qed.
Print Assumptions c40_defined.

(** The tree and all definitions, exactly. *)
Theorem c40_exact : forall E args n s vs s1 text sep q,
  is_call (b "toml") args n ->
  evals E (received args) (entered n s) (Ok (vs, s1)) -> imported vs text sep ->
  TomlText E text sep (node_site n) (x_defs s1) q -> comes_of E n s s1 (Ok q).
Proof. exact toml_exact. Qed.
Print Assumptions c40_exact.

Theorem c40_syntax : forall E args n s vs s1 text sep,
  is_call (b "toml") args n ->
  evals E (received args) (entered n s) (Ok (vs, s1)) -> imported vs text sep -> e_toml E text = None ->
  eval E n s (Err (EErr EToml (node_site n))).
Proof. exact toml_error. Qed.
Print Assumptions c40_syntax.

Definition c40_env : env := docs []
  [(b "doc", [(b "a", TomlTable [(b "b", TomlString (b "x y")); (b "c", TomlArray [TomlInt (-5); TomlBool true])]);
              (b "d", TomlFloat (b "1.5"))])] [] [].
Example c40_example :
  yields c40_env (b "(%toml ""doc"") %a/b %a/c %a/c/1 %d")
    (b "(:a (:b ""x y"" :c (-5 true)) :d 1.5) ""x y"" (-5 true) true 1.5") /\
  yields c40_env (b "(%toml ""doc"" :separator -) %a-c-0") (b "(:a (:b ""x y"" :c (-5 true)) :d 1.5) -5") /\
  rejects c40_env (b "(%toml ""?"")") EToml.
Proof. runs. Qed.

(** ** C45: time zones, dates *)

(** [%date]: all outcomes, in terms of the offset [zone] and the text
    [dated]. *)
Theorem c45_date : forall E args n s vs s1 fmt time r,
  is_call (b "date") args n -> evals E (received args) (entered n s) (Ok (vs, s1)) -> dating vs fmt time ->
  (eval E n s r <-> exists z, zone E (zone_given vs) z /\
    match z with
    | Ok off => exists q, dated E fmt off (zone_site n vs) time q /\
        answers (fun text => Str (Atom text (node_site n) (leading_ws n))) (noted n s (noted n s s1)) q r
    | _ => fails z r
    end).
Proof. exact date_answer. Qed.
Print Assumptions c45_date.

(** [%timestamp]: all outcomes. *)
Theorem c45_timestamp : forall E args n s vs s1 fmt date r,
  is_call (b "timestamp") args n -> evals E (received args) (entered n s) (Ok (vs, s1)) -> timing vs fmt date ->
  (eval E n s r <-> exists z, zone E (zone_given vs) z /\
    match z with
    | Ok off => exists q, timed E fmt date off (node_site n) (zone_site n vs) q /\
        answers (fun t => Num (Atom (show_Z t) (node_site n) (leading_ws n))) (noted n s (noted n s s1)) q r
    | _ => fails z r
    end).
Proof. exact timestamp_answer. Qed.
Print Assumptions c45_timestamp.

(** The offset is unique, and if the number was read as precisely as the
    fixed-point type allows: exact if 3600 times the number is whole, and
    otherwise off by no more than half a second and half a microsecond. *)
Theorem c45_unique : forall h r r', nearest_second h r -> nearest_second h r' -> r = r'.
Proof. exact nearest_unique. Qed.
Print Assumptions c45_unique.
Theorem c45_exact : forall m k h q r,
  nearest_fixed m k h -> nearest_second h r -> (3600 * m = q * 10 ^ Z.of_nat k)%Z -> r = q.
Proof. exact nearest_whole. Qed.
Print Assumptions c45_exact.
Theorem c45_close : forall m k h r, nearest_fixed m k h -> nearest_second h r ->
  (2 ^ 33 * Z.abs (r * 10 ^ Z.of_nat k - 3600 * m) <= (2 ^ 32 + 3600) * 10 ^ Z.of_nat k)%Z.
Proof. exact nearest_close. Qed.
Print Assumptions c45_close.

(** An offset of a day or more is rejected, in both macros, with the blame on
    the option; one that does not fit the fixed-point type overflows. *)
Theorem c45_day : forall E args n s vs s1 fmt r a h off,
  evals E (received args) (entered n s) (Ok (vs, s1)) ->
  zone_given vs = Some a -> e_fixed E (a_val a) = Some h -> representable h -> nearest_second h off -> ~ within_day off ->
  (is_call (b "date") args n -> dating vs fmt [] -> eval E n s r <-> r = Err (EErr EDate (a_site a))) /\
  (forall date, is_call (b "timestamp") args n -> timing vs fmt date -> eval E n s r <-> r = Err (EErr EDate (a_site a))).
Proof.
  intros E args n s vs s1 fmt r a h off V G F R N D.
  assert (Z : forall z, zone E (Some a) z -> z = Ok off).
  { intros z Z. inversion Z as [|? Q|? h' Q R'|? h' secs Q R' N']; subst; rewrite F in Q; try discriminate Q; injection Q as <-.
    - contradiction.
    - f_equal. exact (nearest_unique h secs off N' N). }
  assert (ZS : zone_site n vs = a_site a) by (unfold zone_site; now rewrite G).
  split; [intros C A|intros date C A].
  - rewrite (date_answer E args n s vs s1 fmt [] r C V A), G, ZS. split.
    + intros [z [X Y]]. apply Z in X as ->. destruct Y as [q [Y W]]. inversion Y; subst; try contradiction. exact W.
    + intros ->. exists (Ok off). split; [econstructor; eassumption|]. eexists. split; [apply dated_day_now, D|reflexivity].
  - rewrite (timestamp_answer E args n s vs s1 fmt date r C V A), G, ZS. split.
    + intros [z [X Y]]. apply Z in X as ->. destruct Y as [q [Y W]]. inversion Y; subst; try contradiction. exact W.
    + intros ->. exists (Ok off). split; [econstructor; eassumption|]. eexists. split; [apply timed_day, D|reflexivity].
Qed.
Print Assumptions c45_day.
Theorem c45_overflow : forall E args n s vs s1 fmt time r a h,
  is_call (b "date") args n -> evals E (received args) (entered n s) (Ok (vs, s1)) -> dating vs fmt time ->
  zone_given vs = Some a -> e_fixed E (a_val a) = Some h -> ~ representable h ->
  eval E n s r <-> r = Panic POverflow.
Proof.
  intros E args n s vs s1 fmt time r a h C V A G F R. rewrite (date_answer E args n s vs s1 fmt time r C V A), G. split.
  - intros [z [X Y]]. inversion X as [|? Q|? h' Q R'|? h' secs Q R' N']; subst; rewrite F in Q; try discriminate Q; injection Q as <-;
      [exact Y|contradiction].
  - intros ->. exists (Panic POverflow). split; [econstructor; eassumption|reflexivity].
Qed.
Print Assumptions c45_overflow.

(** Examples: half an hour west; local time; a day; too large; rubbish. *)
Definition c45_env : env := docs [] [] [] [].
Example c45_example :
  yields c45_env (b "(%date ""%Y"" 100 :timezone -0.5)") (b """100+-1800 %Y""") /\
  yields c45_env (b "(%date ""%Y"" 100)") (b """100+3600 %Y""") /\
  yields c45_env (b "(%date ""%Y"")") (b """now+3600 %Y""") /\
  rejects c45_env (b "(%date ""%Y"" 100 :timezone 24)") EDate /\
  panics c45_env (b "(%date ""%Y"" 100 :timezone 600000)") POverflow /\
  panics c45_env (b "(%date ""%"" 100)") PUnwrap /\
  rejects c45_env (b "(%date ""%Y"" 1.5)") EDate /\
  yields c45_env (b "(%timestamp ""%s"" 5000)") (b "1400") /\
  yields c45_env (b "(%timestamp ""%s"" 5000Z)") (b "5000") /\
  yields c45_env (b "(%timestamp ""%s"" 5000 :timezone -0.5)") (b "6800") /\
  rejects c45_env (b "(%timestamp ""%s"" then)") ETimestamp.
Proof. runs. Qed.
(** -1.1 hours are -4724464026 units of 2^-32 hours, and -3960 seconds. *)
Example c45_numbers : nearest_fixed (-11) 1 (-4724464026)%Z /\ nearest_second (-4724464026)%Z (-3960)%Z /\
  representable (-4724464026)%Z.
Proof. unfold nearest_fixed, nearest_second, representable. vm_compute. intuition congruence. Qed.

(** ** C46: %glob *)

(** With a sort key: the wanted paths, in the order of the key, each once; if
    the file system gives no path twice, all of them. *)
Theorem c46_sorted : forall E args n s vs s1 pat t k up l all,
  is_call (b "glob") args n -> evals E (received args) (entered n s) (Ok (vs, s1)) -> listing_args vs pat t k up ->
  k <> ByNone -> e_glob E (a_val pat) = Some l -> all_found l = Some all -> Forall (comparable k) (listing t all) ->
  exists out,
    eval E n s (Ok (path_nodes (a_site pat) (if up then out else rev out), noted n s s1)) /\
    StronglySorted (before k) out /\
    (forall x, In x out -> In x (listing t all)) /\
    (forall x, In x (listing t all) -> exists y, In y out /\ same_path (f_path x) (f_path y) /\
       ~ before k x y /\ ~ before k y x) /\
    (ForallOrdPairs (fun x y => ~ same_path (f_path x) (f_path y)) (listing t all) ->
     Permutation out (listing t all)).
Proof. exact listed_sorted. Qed.
Print Assumptions c46_sorted.

(** Without one: in the reverse order of the file system, or, in descending
    order, in the order of the file system. *)
Theorem c46_unsorted : forall E args n s vs s1 pat t up l all,
  is_call (b "glob") args n -> evals E (received args) (entered n s) (Ok (vs, s1)) -> listing_args vs pat t ByNone up ->
  e_glob E (a_val pat) = Some l -> all_found l = Some all ->
  eval E n s (Ok (path_nodes (a_site pat) (if up then rev (listing t all) else listing t all), noted n s s1)).
Proof. exact listed_unsorted. Qed.
Print Assumptions c46_unsorted.

(** In every case: what is known of the entries or not, the comparison of any
    two has one answer, and these answers determine the listing; up to the
    standard library, if they are no order. *)
Theorem c46_listing : forall E args n s vs s1 pat t k up l all cmp out,
  is_call (b "glob") args n -> evals E (received args) (entered n s) (Ok (vs, s1)) -> listing_args vs pat t k up ->
  e_glob E (a_val pat) = Some l -> all_found l = Some all ->
  compares_by k cmp -> collected E cmp (listing t all) out ->
  eval E n s (Ok (path_nodes (a_site pat) (if up then out else rev out), noted n s s1)).
Proof. exact listed_any. Qed.
Print Assumptions c46_listing.
Theorem c46_compared : forall k, exists cmp, compares_by k cmp /\
  forall cmp', compares_by k cmp' -> forall x y, cmp' x y = cmp x y.
Proof. exact compares_only. Qed.
Print Assumptions c46_compared.
Theorem c46_collected : forall E (A : Type) (cmp : A -> A -> comparison) l, exists! out, collected E cmp l out.
Proof. exact @collected_only. Qed.
Print Assumptions c46_collected.

Theorem c46_wrong : forall E args n s vs s1 pat t k up,
  is_call (b "glob") args n -> evals E (received args) (entered n s) (Ok (vs, s1)) -> listing_args vs pat t k up ->
  (e_glob E (a_val pat) = None -> eval E n s (Err (EErr EGlob (a_site pat)))) /\
  (forall good fs rest, all_found good = Some fs -> e_glob E (a_val pat) = Some (good ++ None :: rest) ->
     eval E n s (Err (EErr EGlob (a_site pat)))) /\
  (forall good fs p rest, all_found good = Some fs -> e_glob E (a_val pat) = Some (good ++ Some (p, None) :: rest) ->
     eval E n s (Panic PUnwrap)).
Proof. exact listed_wrong. Qed.
Print Assumptions c46_wrong.

Definition c46_file p c m := Some (b p, Some (Meta true false (Some c) (Some m)))%Z.
Definition c46_dir p c m := Some (b p, Some (Meta false true (Some c) (Some m)))%Z.
Definition c46_timeless p := Some (b p, Some (Meta true false None None)).
Definition c46_list := [c46_file "b.x" 1 5; c46_file "a.y" 2 5; c46_dir "c" 3 9; c46_file "a" 4 1].
Definition c46_env : env := docs [] [] []
  [(b "*", c46_list); (b "timeless", [c46_timeless "a"; c46_timeless "b"]); (b "mixed", [c46_timeless "a"; c46_file "b" 1 5]); (b "bad", [c46_file "b.x" 1 5; None]); (b "gone", [Some (b "x", None)])].
Example c46_example :
  yields c46_env (b "(%glob * :sort name)") (b """a"" ""a.y"" ""b.x"" ""c""") /\
  yields c46_env (b "(%glob * :sort modified)") (b """c"" ""a.y"" ""b.x"" ""a""") /\
  yields c46_env (b "(%glob * :sort created)") (b """a"" ""c"" ""a.y"" ""b.x""") /\
  yields c46_env (b "(%glob * :sort type)") (b """c"" ""a"" ""b.x"" ""a.y""") /\
  yields c46_env (b "(%glob * :sort type :order descending :type file)") (b """a.y"" ""b.x"" ""a""") /\
  yields c46_env (b "(%glob * :type directory)") (b """c""") /\
  yields c46_env (b "(%glob *)") (b """a"" ""c"" ""a.y"" ""b.x""") /\
  yields c46_env (b "(%glob * :order descending)") (b """b.x"" ""a.y"" ""c"" ""a""") /\
  yields c46_env (b "(%glob timeless :sort created)") (b """b"" ""a""") /\
  yields c46_env (b "(%glob mixed :sort created)") [] /\
  rejects c46_env (b "(%glob ?)") EGlob /\
  rejects c46_env (b "(%glob bad)") EGlob /\
  panics c46_env (b "(%glob gone)") PUnwrap.
Proof. runs. Qed.

(** ** C54: %markdown *)

(** With front matter: it is imported, and the text is converted. *)
Theorem c54_both : forall E args n s vs s1 a sep d html,
  is_call (b "markdown") args n -> evals E (received args) (entered n s) (Ok (vs, s1)) ->
  marked vs a sep (b "both") -> front_data E (a_val a) d -> e_html E (a_val a) = Some html ->
  exists s', eval E n s (Ok ([Raw (Atom html (node_site n) (leading_ws n))], s')) /\
    imports sep (node_site n) d (x_defs s1) (x_defs s') /\ quiet s1 s'.
Proof. exact markdown_both. Qed.
Print Assumptions c54_both.

(** Only the front matter: it is imported, and there is no text. *)
Theorem c54_front : forall E args n s vs s1 a sep d,
  is_call (b "markdown") args n -> evals E (received args) (entered n s) (Ok (vs, s1)) ->
  marked vs a sep (b "frontmatter") -> front_data E (a_val a) d ->
  exists s', eval E n s (Ok ([], s')) /\
    imports sep (node_site n) d (x_defs s1) (x_defs s') /\ quiet s1 s'.
Proof. exact markdown_front. Qed.
Print Assumptions c54_front.

(** Only the text: nothing is defined. *)
Theorem c54_content : forall E args n s vs s1 a sep html,
  is_call (b "markdown") args n -> evals E (received args) (entered n s) (Ok (vs, s1)) ->
  marked vs a sep (b "content") -> e_html E (a_val a) = Some html ->
  exists s', eval E n s (Ok ([Raw (Atom html (node_site n) (leading_ws n))], s')) /\
    x_defs s' = x_defs s1 /\ quiet s1 s'.
Proof. exact markdown_content. Qed.
Print Assumptions c54_content.

(** Without front matter nothing is defined. *)
Theorem c54_plain : forall E args n s vs s1 a sep html,
  is_call (b "markdown") args n -> evals E (received args) (entered n s) (Ok (vs, s1)) ->
  marked vs a sep (b "both") -> front_absent E (a_val a) -> e_html E (a_val a) = Some html ->
  exists s', eval E n s (Ok ([Raw (Atom html (node_site n) (leading_ws n))], s')) /\
    x_defs s' = x_defs s1 /\ quiet s1 s'.
Proof. exact markdown_plain. Qed.
Print Assumptions c54_plain.

(** Invalid front matter is not reported, unless it is asked for. *)
Theorem c54_ignored : forall E args n s vs s1 a sep html,
  is_call (b "markdown") args n -> evals E (received args) (entered n s) (Ok (vs, s1)) ->
  marked vs a sep (b "both") -> front_broken E (a_val a) -> e_html E (a_val a) = Some html ->
  exists s', eval E n s (Ok ([Raw (Atom html (node_site n) (leading_ws n))], s')) /\ quiet s1 s'.
Proof. exact markdown_ignored. Qed.
Print Assumptions c54_ignored.

Theorem c54_demanded : forall E args n s vs s1 a sep,
  is_call (b "markdown") args n -> evals E (received args) (entered n s) (Ok (vs, s1)) ->
  marked vs a sep (b "frontmatter") ->
  (front_absent E (a_val a) -> eval E n s (Err (EErr EMarkdown (a_site a)))) /\
  (front_broken E (a_val a) -> exists k, (k = EYaml \/ k = EToml) /\ eval E n s (Err (EErr k (node_site n)))).
Proof. exact markdown_demanded. Qed.
Print Assumptions c54_demanded.

Theorem c54_unreadable : forall E args n s vs s1 a sep only,
  is_call (b "markdown") args n -> evals E (received args) (entered n s) (Ok (vs, s1)) ->
  marked vs a sep only -> (only = b "content" \/ only = b "both" /\ front_absent E (a_val a)) ->
  e_html E (a_val a) = None -> eval E n s (Err (EErr EMarkdown (a_site a))).
Proof. exact markdown_unreadable. Qed.
Print Assumptions c54_unreadable.

Definition c54_env : env := docs
  [(b "y", (events (Table [(b "t", c39_text "T")]), true));
   (b "cut", ([YMapStart; YScalar (b "t"); YScalar (b "U")], false))]
  [(b "t", [(b "t", TomlInt 7)])]
  [(b "a", (Some (FYaml (b "y")), Some (b "<p>")));
   (b "b", (Some (FToml (b "t")), Some (b "<q>")));
   (b "c", (Some FNone, Some (b "<r>")));
   (b "d", (Some (FYaml (b "cut")), Some (b "<s>")));
   (b "e", (None, None))] [].
Example c54_example :
  yields c54_env (b "(%markdown ""a"") %t") (b """<p>"" ""T""") /\
  yields c54_env (b "(%markdown ""b"" :only frontmatter) %t") (b " 7") /\
  rejects c54_env (b "(%markdown ""a"" :only content) %t") EUndefined /\
  yields c54_env (b "(%markdown ""c"")") (b """<r>""") /\
  rejects c54_env (b "(%markdown ""c"" :only frontmatter)") EMarkdown /\
  rejects c54_env (b "(%markdown ""d"" :only frontmatter)") EYaml /\
  rejects c54_env (b "(%markdown ""e"")") EMarkdown.
Proof. runs. Qed.
(** What was read before the error in the front matter stays defined. *)
Theorem c54_leftover_refuted : exists E text front, front_broken E text /\ front = b "(%markdown """ ++ text ++ b """)" /\
  yields E (front ++ b " %t") (b """<s>"" ""U""") /\ rejects E (b "%t") EUndefined.
Proof.
  exists c54_env, (b "d"), (b "(%markdown ""d"")"). split; [|split; [reflexivity|runs]].
  unfold front_broken. left. eexists. split; [vm_compute; reflexivity|].
  exists [YMapStart; YScalar (b "t"); YScalar (b "U")], [YMapEnd], (Table [(b "t", c39_text "U")]).
  repeat split; vm_compute; reflexivity.
Qed.
Print Assumptions c54_leftover_refuted.
