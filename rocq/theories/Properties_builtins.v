(** * Properties of the builtin macros (C28-C32, C34, C35, C38, C41) *)

From Coq Require Import String List Ascii Bool Arith NArith ZArith Permutation Sorted.
From Verif Require Import Text Res Ast Args Env Scope State Bind Numbers Paths Sorting Expander Parser
  Spec_args Spec_expand Spec_builtin Spec_bind Spec_control Spec_scope Spec_sort
  Proofs_run Proofs_eval Proofs_args Proofs_builtin Proofs_simple Proofs_bind Proofs_control
  Proofs_more Proofs_get Proofs_sort Proofs_scope Proofs_macros Proofs_extra Proofs_names Spec_errors Proofs_errors Proofs_outcomes
  Conformance Runs Properties_macros.
Import ListNotations.

(** ** C28: %reverse *)

Theorem c28_reverse : forall E args n s r,
  is_call (b "reverse") args n ->
  eval E n s r <->
  exists q, evals E (received args) (entered n s) q /\
    match q with
    | Ok (vs, s1) =>
        (exists ns st ew es w ns', vs = [Lst ns st ew es w] /\ reversal ns ns' /\
           r = Ok ([Lst ns' st ew es w], noted n s s1)) \/
        refused rules_reverse n vs r
    | _ => fails q r
    end.
Proof. exact reverse_outcome. Qed.
Print Assumptions c28_reverse.

Theorem c28_twice : forall ns ns1 ns2, reversal ns ns1 -> reversal ns1 ns2 -> ns2 = ns.
Proof. exact reversal_twice. Qed.
Print Assumptions c28_twice.

Theorem c28_unique : forall ns ns1 ns2, reversal ns ns1 -> reversal ns ns2 -> ns1 = ns2.
Proof. exact reversal_fun. Qed.
Print Assumptions c28_unique.

Example c28_example : yields env1 (b "(%reverse (1 2  3))") (b "(3 2  1)") /\
  yields env1 (b "(%reverse (%reverse (1 2  3)))") (b "(1 2  3)") /\
  example_call env1 (b "reverse") (b "(%reverse ())") (b "()") /\
  rejects env1 (b "(%reverse 1)") EArgType.
Proof. runs. Qed.

(** ** C29: %sort *)

Theorem c29_sort : forall E args n s r,
  is_call (b "sort") args n ->
  eval E n s r <->
  exists q, evals E (received args) (entered n s) q /\
    match q with
    | Ok (vs, s1) =>
        (exists v, positionals vs = [v] /\
           options vs (fun k v => (k = b "order" /\ text_among [b "ascending"; b "descending"] v) \/
                           (k = b "key" /\ exists a, v = Sym a)) /\
           let name := chosen (b "key") (b "do") vs in
           let key_site := match keyword_value (b "key") vs with
                           | Some k => node_site k | None => node_site n end in
           let cmp := by_key E (negb (beq (chosen (b "order") (b "ascending") vs) (b "ascending"))) in
           match v with
           | Lst nodes st ew es _ =>
               exists q1, keyed E name (ref n s) key_site nodes (noted n s s1) q1 /\
                 match q1 with
                 | Ok (items, s2) =>
                     exists q2, sorts E cmp items q2 /\
                       match q2 with
                       | Ok sorted => exists ns, arranged (map snd sorted) nodes ns /\
                           r = Ok ([Lst ns st ew es (leading_ws n)], noted n s s2)
                       | _ => fails q2 r
                       end
                 | _ => fails q1 r
                 end
           | _ => r = Err (EErr ESort (node_site v))
           end) \/
        refused rules_sort n vs r
    | _ => fails q r
    end.
Proof. exact sort_outcome. Qed.
Print Assumptions c29_sort.

(** On keys that form a preorder, sorting is stable, and there is only one
    such arrangement; on others it panics, or no element is lost. *)
Theorem c29_stable : forall (A : Type) E (cmp : A -> A -> comparison) l q, preorder cmp l ->
  (sorts E cmp l q <-> exists l', q = Ok l' /\ stable_sorted cmp l l').
Proof. intros A E cmp. exact (sorts_preorder cmp E). Qed.
Print Assumptions c29_stable.
Theorem c29_permutation : forall (A : Type) E (cmp : A -> A -> comparison) l q, sorts E cmp l q ->
  q = Panic PSortOrder /\ ~ preorder cmp l \/ exists l', q = Ok l' /\ Permutation l' l.
Proof. intros A E cmp. exact (sorts_cases cmp E). Qed.
Print Assumptions c29_permutation.

Theorem c29_unique : forall (A : Type) (cmp : A -> A -> comparison) l l1 l2,
  preorder cmp l -> stable_sorted cmp l l1 -> stable_sorted cmp l l2 -> l1 = l2.
Proof. exact @sorted_unique. Qed.
Print Assumptions c29_unique.

(** Integers are compared as integers, and integer keys form a preorder. *)
Theorem c29_integers : forall E l, Forall (fun k => parse_i64 k <> None) l ->
  preorder (key_cmp E) l /\
  forall x y i j, parse_i64 x = Some i -> parse_i64 y = Some j -> key_cmp E x y = Z.compare i j.
Proof.
  intros E l H. split; [exact (int_keys E l H)|].
  intros x y i j X Y. unfold key_cmp. rewrite X, Y. reflexivity.
Qed.
Print Assumptions c29_integers.

(** Keys that are no numbers are compared as byte strings. *)
Theorem c29_texts : forall E l,
  Forall (fun k => parse_i64 k = None /\ (e_float E k = None \/ e_float E k = Some None)) l ->
  preorder (key_cmp E) l /\
  forall x y, In x l -> In y l -> e_float E x = None -> key_cmp E x y = bytes_cmp x y.
Proof.
  intros E l H. split; [exact (text_keys E l H)|].
  intros x y X Y F. rewrite Forall_forall in H. destruct (H x X) as [Ix _]. unfold key_cmp.
  rewrite Ix, F. destruct (parse_i64 y); reflexivity.
Qed.
Print Assumptions c29_texts.

Theorem c29_floats : forall E l,
  Forall (fun k => parse_i64 k = None /\ exists z, e_float E k = Some (Some z)) l ->
  preorder (key_cmp E) l.
Proof. exact float_keys. Qed.
Print Assumptions c29_floats.

(** Numbers of both kinds, as long as conversion to floating point keeps the
    order of the integers among them. *)
Theorem c29_numbers : forall E l,
  Forall (fun k => exists z, e_float E k = Some (Some z)) l ->
  (forall x y n m f g, In x l -> In y l -> parse_i64 x = Some n -> parse_i64 y = Some m ->
     e_float E x = Some (Some f) -> e_float E y = Some (Some g) -> Z.compare n m = Z.compare f g) ->
  preorder (key_cmp E) l.
Proof. exact number_keys. Qed.
Print Assumptions c29_numbers.

(** The defect: 2 < 10 < 1a < 2, so sorting panics or gives some order, as the
    standard library likes. *)
Theorem c29_mixed_refuted :
  let cmp := key_cmp env1 in
  cmp (b "2") (b "10") = Lt /\ cmp (b "10") (b "1a") = Lt /\ cmp (b "1a") (b "2") = Lt /\
  panics env1 (b "(%sort (2 10 1a))") PSortOrder /\
  yields (with_unsorted (fun _ => Some [1; 1; 0]) env1) (b "(%sort (2  10 1a))") (b "(10  1a 2)").
Proof. repeat apply conj; [vm_compute; reflexivity ..|fails_with|shows]. Qed.
Print Assumptions c29_mixed_refuted.

Example c29_example :
  yields env1 (b "(%sort (b 10  a 9))") (b "(9 10  a b)") /\
  yields env1 (b "(%sort (9 10 2) :order descending)") (b "(10 9 2)") /\
  yields env1 (b "(%define (k n) (%get 0 %n)) (%sort ((3 a) (1 b) (3 c) (2 d)) :key k)")
    (b " ((1 b) (2 d) (3 a) (3 c))") /\
  rejects env1 (b "(%sort 5)") ESort.
Proof. runs. Qed.

(** ** C30: %join, %concat, %string, %raw, %number, %symbol *)

Theorem c30_join : forall E args n s r,
  is_call (b "join") args n ->
  eval E n s r <->
  exists q, evals E (received args) (entered n s) q /\
    match q with
    | Ok (vs, s1) =>
        (exists sep pieces, texts (positionals vs) = Some (sep :: pieces) /\
           options vs (fun k v => k = b "trailing" /\ text_among [b "true"; b "false"] v) /\
           r = Ok ([Str (in_place n (separated sep pieces ++
                      (if beq (chosen (b "trailing") (b "false") vs) (b "true") then sep else [])))],
                   noted n s s1)) \/
        refused rules_join n vs r
    | _ => fails q r
    end.
Proof. exact join_outcome. Qed.
Print Assumptions c30_join.

Theorem c30_concat : forall E args n s r,
  is_call (b "concat") args n ->
  eval E n s r <->
  exists q, evals E (received args) (entered n s) q /\
    match q with
    | Ok (vs, s1) =>
        (exists pieces, texts vs = Some pieces /\
           r = Ok ([Str (in_place n (separated [] pieces))], noted n s s1)) \/
        refused rules_literals n vs r
    | _ => fails q r
    end.
Proof. exact concat_outcome. Qed.
Print Assumptions c30_concat.

(** [%string] and [%raw]: the values with the whitespace before them. *)
Theorem c30_string : forall E args n s r,
  is_call (b "string") args n ->
  eval E n s r <->
  exists q, evals E (received args) (entered n s) q /\
    match q with
    | Ok (vs, s1) =>
        (exists al, map (@Some atom) al = map atomic vs /\
           r = Ok ([Str (in_place n (flat_map (fun a => a_ws a ++ a_val a) al))], noted n s s1)) \/
        (exists v, first_without literal vs v /\ r = Err (EErr EString (node_site v)))
    | _ => fails q r
    end.
Proof.
  exact (fun E args n s r => text_outcome E Str EString (b "string") BString args n s r eq_refl (fun _ _ => eq_refl)).
Qed.
Print Assumptions c30_string.

Theorem c30_raw : forall E args n s r,
  is_call (b "raw") args n ->
  eval E n s r <->
  exists q, evals E (received args) (entered n s) q /\
    match q with
    | Ok (vs, s1) =>
        (exists al, map (@Some atom) al = map atomic vs /\
           r = Ok ([Raw (in_place n (flat_map (fun a => a_ws a ++ a_val a) al))], noted n s s1)) \/
        (exists v, first_without literal vs v /\ r = Err (EErr ERaw (node_site v)))
    | _ => fails q r
    end.
Proof.
  exact (fun E args n s r => text_outcome E Raw ERaw (b "raw") BRaw args n s r eq_refl (fun _ _ => eq_refl)).
Qed.
Print Assumptions c30_raw.

(** [%number] and [%symbol] change the kind of each argument. *)
Theorem c30_number : forall E args n s r,
  is_call (b "number") args n ->
  eval E n s r <->
  exists q, evals E (received args) (entered n s) q /\
    match q with
    | Ok (vs, s1) =>
        (exists al, map (@Some atom) al = map atomic vs /\ r = Ok (map Num al, noted n s s1)) \/
        refused rules_literals n vs r
    | _ => fails q r
    end.
Proof.
  exact (fun E args n s r => literals_outcome E Num (b "number") BNumber args n s r ltac:(cbn; tauto) eq_refl
           (fun _ _ => eq_refl)).
Qed.
Print Assumptions c30_number.

Theorem c30_symbol : forall E args n s r,
  is_call (b "symbol") args n ->
  eval E n s r <->
  exists q, evals E (received args) (entered n s) q /\
    match q with
    | Ok (vs, s1) =>
        (exists al, map (@Some atom) al = map atomic vs /\ r = Ok (map Sym al, noted n s s1)) \/
        refused rules_literals n vs r
    | _ => fails q r
    end.
Proof.
  exact (fun E args n s r => literals_outcome E Sym (b "symbol") BSymbol args n s r ltac:(cbn; tauto) eq_refl
           (fun _ _ => eq_refl)).
Qed.
Print Assumptions c30_symbol.

Example c30_example :
  yields env1 (b "(%join "", "" a b c)") (b """a, b, c""") /\
  yields env1 (b "(%join ""/"" a b :trailing true)") (b """a/b/""") /\
  yields env1 (b "(%join ""/"")") (b """""") /\
  yields env1 (b "(%concat a ""b"" 1)") (b """ab1""") /\
  yields env1 (b "(%string a  b ""c"")") (b """a  b c""") /\
  yields env1 (b "(%number a) (%symbol ""b"")") (b "ab") /\
  rejects env1 (b "(%join (a))") EArgType.
Proof. runs. Qed.

(** ** C31: %get *)

Theorem c31_get : forall E args n s r,
  is_call (b "get") args n ->
  eval E n s r <->
  exists q, evals E (received args) (entered n s) q /\
    match q with
    | Ok (vs, s1) =>
        (exists p path v, positionals vs = [p; v] /\ atomic p = Some path /\
           options vs (fun k v => k = b "separator" /\ literal v) /\
           let items := split (chosen (b "separator") (b "/") vs) (a_val path) in
           ((exists m, reaches items v m /\ r = Ok ([m], noted n s s1)) \/
            (exists m, stuck items v m /\ r = Err (EErr EGet (node_site m))))) \/
        refused rules_get n vs r
    | _ => fails q r
    end.
Proof. exact get_outcome. Qed.
Print Assumptions c31_get.

(** A path that leads nowhere is stuck somewhere, and in one place only. *)
Theorem c31_missing : forall items v,
  ((forall m, ~ reaches items v m) <-> exists m, stuck items v m) /\
  (forall m m', stuck items v m -> stuck items v m' -> m = m').
Proof. exact stuck_exactly. Qed.
Print Assumptions c31_missing.

(** A path leads to one node at most; paths compose. *)
Theorem c31_unique : forall p n m m', reaches p n m -> reaches p n m' -> m = m'.
Proof. exact reaches_fun. Qed.
Print Assumptions c31_unique.

Theorem c31_compose : forall p1 p2 n k,
  reaches (split (b "/") (p1 ++ b "/" ++ p2)) n k <->
  exists m, reaches (split (b "/") p1) n m /\ reaches (split (b "/") p2) m k.
Proof. intros p1 p2 n k. rewrite split_slash. apply reaches_app. Qed.
Print Assumptions c31_compose.

Example c31_example :
  yields env1 (b "(%get b/0 (a :b (x y) c))") (b "x") /\
  yields env1 (b "(%get 2 (a :b (x y) c))") (b " c") /\
  yields env1 (b "(%get k.0 (a :k (:0 zero)) :separator .)") (b ":0 zero") /\
  rejects env1 (b "(%get 5 (a))") EGet /\ rejects env1 (b "(%get 0/0 (a))") EGet.
Proof. runs. Qed.

(** ** C32: %map, %filter, %splat, %list, %strip, %do, %apply *)

Theorem c32_map : forall E args n s r,
  is_call (b "map") args n ->
  eval E n s r <->
  exists q, evals E (received args) (entered n s) q /\
    match q with
    | Ok (vs, s1) =>
        match positionals vs with
        | Sym f :: _ => applying E (a_val f) (ref n s) drop_none (drop_positionals 1 vs) (noted n s s1) r
        | _ => refused rules_map n vs r
        end
    | _ => fails q r
    end.
Proof.
  exact (fun E args n s r C => functional_outcome E (b "map") args n s r _ (eval_map E false args n s r C) C).
Qed.
Print Assumptions c32_map.

Theorem c32_filter : forall E args n s r,
  is_call (b "filter") args n ->
  eval E n s r <->
  exists q, evals E (received args) (entered n s) q /\
    match q with
    | Ok (vs, s1) =>
        match positionals vs with
        | Sym f :: _ => applying E (a_val f) (ref n s) is_unit (drop_positionals 1 vs) (noted n s s1) r
        | _ => refused rules_map n vs r
        end
    | _ => fails q r
    end.
Proof.
  exact (fun E args n s r C => functional_outcome E (b "filter") args n s r _ (eval_map E true args n s r C) C).
Qed.
Print Assumptions c32_filter.

(** The result of a successful application to each argument. *)
Theorem c32_results : forall E name c drop ns s out s',
  applying E name c drop ns s (Ok (out, s')) ->
  exists results states,
    out = concat (filter (fun xs => negb (drop xs)) results) /\
    length results = length ns /\ length states = S (length ns) /\
    nth_error states 0 = Some s /\ nth_error states (length ns) = Some s' /\
    forall i n, nth_error ns i = Some n ->
      exists xs s1 s2, nth_error results i = Some xs /\ nth_error states i = Some s1 /\
        invokes E name c [n] s1 (Ok (xs, s2)) /\ nth_error states (S i) = Some s2.
Proof. exact applying_results. Qed.
Print Assumptions c32_results.

(** One level of lists is removed; the first element takes the whitespace of
    the list. *)
Definition flattened (n : node) : list node :=
  match n with Lst ns _ _ _ w => respaced w ns | _ => [n] end.
Theorem c32_splat : forall E args n s r,
  is_call (b "splat") args n ->
  eval E n s r <->
  exists q, evals E (received args) (entered n s) q /\
    match q with
    | Ok (vs, s1) => r = Ok (flat_map flattened vs, s1)
    | _ => fails q r
    end.
Proof. exact splat_outcome. Qed.
Print Assumptions c32_splat.

Theorem c32_list : forall E args n s r,
  is_call (b "list") args n ->
  eval E n s r <->
  exists q, evals E (received args) (entered n s) q /\
    match q with
    | Ok (vs, s1) => exists h t st ew es w, n = Lst (h :: t) st ew es w /\
                       r = Ok ([Lst vs st ew es w], noted n s s1)
    | _ => fails q r
    end.
Proof. exact list_outcome. Qed.
Print Assumptions c32_list.

Theorem c32_strip : forall E args n s r,
  is_call (b "strip") args n ->
  eval E n s r <->
  exists q, evals E (received args) (entered n s) q /\
    match q with
    | Ok (vs, s1) => r = Ok (respaced [] vs, s1)
    | _ => fails q r
    end.
Proof. exact strip_outcome. Qed.
Print Assumptions c32_strip.

Theorem c32_do : forall E args n s r,
  is_call (b "do") args n ->
  eval E n s r <-> evals E (received args) (entered n s) r.
Proof. exact eval_do. Qed.
Print Assumptions c32_do.

Theorem c32_apply : forall E args n s r,
  is_call (b "apply") args n ->
  eval E n s r <->
  exists q, evals E (received args) (entered n s) q /\
    match q with
    | Ok (vs, s1) =>
        match positionals vs with
        | Sym f :: _ => invokes E (a_val f) (ref n s) (drop_positionals 1 vs) (noted n s s1) r
        | _ => refused rules_map n vs r
        end
    | _ => fails q r
    end.
Proof.
  exact (fun E args n s r C => functional_outcome E (b "apply") args n s r _ (eval_apply E args n s r C) C).
Qed.
Print Assumptions c32_apply.

Example c32_example :
  yields env1 (b "(%define (f x) (%list %x %x)) (%map f a b)") (b " (a a) (b b)") /\
  yields env1 (b "(%define (f x) (%match %x (1 ()) (y %y))) (%filter f 1 2 3)") (b " 2 3") /\
  yields env1 (b "(%splat (a b) c ((d) e))") (b "a b c (d) e") /\
  yields env1 (b "(%list a b)") (b "(a b)") /\
  yields env1 (b "(%do (%define x 1) %x)") (b " 1") /\
  yields env1 (b "(%define (f x &r) (v %x %r)) (%apply f 1 2 3)") (b " (v 1 2 3)").
Proof. runs. Qed.

(** ** C34: %namespace *)

Theorem c34_namespace : forall E, permuting E -> forall args n s r,
  is_call (b "namespace") args n ->
  eval E n s r <->
  exists q, evals E (received args) (copied (entered n s)) q /\
    match q with
    | Ok (vs, s1) =>
        match vs with
        | name :: rest =>
            match atomic name with
            | Some a =>
                (options (front_keywords rest) is_separator /\
                 exists defs, r = Ok (after_keywords rest,
                      new_maps 1 (set_defs defs (left_ (entered n s) s1))) /\
                   imported (a_val a ++ chosen (b "separator") (b "/") (front_keywords rest))
                     (x_defs s1) (x_defs s) defs) \/
                (exists st, bad_option rest st /\ r = Err (EErr ENamespace st))
            | None => r = Err (EErr ENamespace (node_site n))
            end
        | [] => r = Err (EErr ENamespace (node_site n))
        end
    | _ => fails q r
    end.
Proof. exact namespace_outcome. Qed.
Print Assumptions c34_namespace.

(** The final definitions are determined, whatever the hash order. *)
Theorem c34_unique : forall prefix inner outer f1 f2,
  imported prefix inner outer f1 -> imported prefix inner outer f2 -> f1 = f2.
Proof. exact imported_fun. Qed.
Print Assumptions c34_unique.

Example c34_example :
  yields env1 (b "(%namespace ns (%define x 1) %x)(v %ns/x)") (b " 1(v 1)") /\
  yields env1 (b "(%namespace ns :separator . (%define x 1) %x)(v %ns.x) (%ifdef x bad good)")
    (b " 1(v 1) good") /\
  rejects env1 (b "(%namespace ns :sep . x)") ENamespace.
Proof. runs. Qed.

(** ** C35: %include and %embed *)

Theorem c35_embed : forall E args n s r,
  is_call (b "embed") args n ->
  eval E n s r <->
  exists q, evals E (received args) (entered n s) q /\
    match q with
    | Ok ([v], s1) =>
        match atomic v with
        | Some a =>
            (exists p text, first_readable E (candidates false (e_includes E) (a_val a)) p text /\
               r = Ok ([Str (in_place n text)], noted n s s1)) \/
            (none_readable E (candidates false (e_includes E) (a_val a)) /\
               r = Err (EErr EEmbed (a_site a)))
        | None => r = Err (EErr EEmbed (node_site v))
        end
    | Ok _ => r = Err (EErr EEmbed (node_site n))
    | _ => fails q r
    end.
Proof. exact eval_embed. Qed.
Print Assumptions c35_embed.

Theorem c35_include : forall E args n s r,
  is_call (b "include") args n ->
  eval E n s r <->
  exists q, evals E (received args) (entered n s) q /\
    match q with
    | Ok ([v], s1) =>
        match atomic v with
        | Some a =>
            (exists p text, first_readable E (candidates true (e_includes E) (a_val a)) p text /\
               let id := length (g_sources (x_world s1)) in
               let s2 := snd (add_source p text s1) in
               match parse (e_unescape E) id text with
               | Ok tree => exists q1, evals E tree s2 q1 /\
                   match q1 with
                   | Ok ([], s3) => r = Ok ([], s3)
                   | Ok (ns, s3) => r = Ok (respaced (leading_ws n) ns, noted n s s3)
                   | _ => fails q1 r
                   end
               | Err _ => r = Err (EErr EInclude (node_site n))
               | Panic x => r = Panic x
               | Hang => r = Hang
               | OutOfFuel => False
               end) \/
            (none_readable E (candidates true (e_includes E) (a_val a)) /\
               r = Err (EErr EInclude (a_site a)))
        | None => r = Err (EErr EInclude (node_site v))
        end
    | Ok _ => r = Err (EErr EInclude (node_site n))
    | _ => fails q r
    end.
Proof. exact eval_include. Qed.
Print Assumptions c35_include.

Theorem c35_first : forall E ps p t p' t',
  first_readable E ps p t -> first_readable E ps p' t' -> p = p' /\ t = t'.
Proof. exact first_readable_fun. Qed.
Print Assumptions c35_first.

(** The candidates for a file name in a directory. *)
Theorem c35_candidates : forall dir name, tidy_dir dir -> plain_name name ->
  candidates true [dir] name = [dir ++ b "/" ++ name; dir ++ b "/" ++ name ++ b ".sex"] /\
  candidates false [dir] name = [dir ++ b "/" ++ name].
Proof. exact candidates_plain. Qed.
Print Assumptions c35_candidates.

(** The directories searched: those given and [.], without repetition, in
    increasing order of their paths. *)
Theorem c35_directories : forall dirs,
  StronglySorted (fun p q => path_cmp p q = Lt) (include_set dirs) /\
  (forall d, In d (include_set dirs) -> In d (b "." :: dirs)) /\
  (forall d, In d (b "." :: dirs) -> exists d', In d' (include_set dirs) /\ same_path d d').
Proof. exact include_set_spec. Qed.
Print Assumptions c35_directories.

(** So the order in which they are given has no influence. *)
Theorem c35_order : forall dirs dirs', (forall d, In d dirs <-> In d dirs') ->
  Forall2 same_path (include_set dirs) (include_set dirs').
Proof. exact include_set_perm. Qed.
Print Assumptions c35_order.

Definition c35_files : list (bytes * bytes) :=
  [(b "./z/f", b "from z"); (b "lib/f.sex", b "(%define x lib) (v %x)"); (b "z/f", b "from z")].
Definition c35_env (dirs : list bytes) : env := env0_with c35_files dirs.
Example c35_example :
  yields (c35_env [b "z"; b "lib"]) (b "(%include f)") (b "(v lib)") /\
  yields (c35_env [b "lib"; b "z"]) (b "(%embed f)") (b """from z""") /\
  rejects (c35_env [b "lib"]) (b "(%embed f)") EEmbed.
Proof. runs. Qed.
(** The defect: [z] is given first, but [lib] is searched first. *)
Theorem c35_order_refuted : exists d1 d2 p t,
  include_set [d1; d2] = [b "."; d2; d1] /\
  e_read (c35_env [d1; d2]) (path_join d1 (b "f")) <> None /\
  first_readable (c35_env [d1; d2]) (candidates true (e_includes (c35_env [d1; d2])) (b "f")) p t /\
  p <> path_join d1 (b "f").
Proof.
  exists (b "z"), (b "lib"), (b "lib/f.sex"), (b "(%define x lib) (v %x)").
  repeat apply conj; [vm_compute; reflexivity|discriminate| |discriminate].
  exists [b "./f"; b "./f.sex"; b "lib/f"], [b "z/f"; b "z/f.sex"].
  repeat apply conj; vm_compute; repeat constructor.
Qed.
Print Assumptions c35_order_refuted.

(** ** C38: checking of arguments *)

Theorem c38_arguments : forall rs n ps,
  well_formed rs ->
  (accepted rs ps -> exists x, arguments rs n ps = Ok x /\ fields_ok rs ps x) /\
  (~ accepted rs ps -> exists e, arguments rs n ps = Err e).
Proof. exact arguments_spec. Qed.
Print Assumptions c38_arguments.

(** All rule tables in the code are well-formed. *)
Theorem c38_tables : Forall well_formed
  [rules_markdown; rules_yaml; rules_get; rules_date; rules_timestamp; rules_for; rules_glob;
   rules_literals; rules_reverse; rules_sort; rules_join; rules_map; rules_lambda].
Proof.
  repeat (apply Forall_cons; [first
    [exact wf_markdown|exact wf_yaml|exact wf_get|exact wf_date|exact wf_timestamp|exact wf_for|
     exact wf_glob|exact wf_literals|exact wf_reverse|exact wf_sort|exact wf_join|exact wf_map|
     exact wf_lambda]|]). constructor.
Qed.
Print Assumptions c38_tables.

(** In the macros that check their evaluated arguments, arguments against the
    rules are an error. *)
Theorem c38_rejected : forall E name rs args n s vs s1,
  In (name, rs) eager_rules -> is_call name args n ->
  evals E (received args) (entered n s) (Ok (vs, s1)) -> ~ accepted rs vs ->
  exists e, eval E n s (Err e).
Proof. exact eager_rejects. Qed.
Print Assumptions c38_rejected.

Example c38_example : rejects env1 (b "(%join)") EArgMissing /\
  rejects env1 (b "(%reverse (1) (2))") EArgExcess /\
  rejects env1 (b "(%sort (1) :order up)") EArgValue /\
  rejects env1 (b "(%sort (1) :key ""k"")") EArgType.
Proof. runs. Qed.

(** ** C41: lambdas *)

(** A lambda evaluates to a name derived from its site, and defines the macro
    with that name. *)
Theorem c41_lambda : forall E args n s head params,
  is_call (b "lambda") args n ->
  positionals (received args) = head :: tl (positionals (received args)) ->
  match head with Lst ps _ _ _ _ => params = ps | Sym _ => params = [head] | _ => False end ->
  length (rest_names params) <= 1 -> length (kwrest_names params) <= 1 ->
  let name := b "__lambda" ++ uuid E s (node_site n) in
  exists s1, eval E n s (Ok ([Sym (in_place n name)], s1)) /\
    defines (entered n s) name (Macro params (drop_positionals 1 (received args))) s1.
Proof. exact lambda_defines. Qed.
Print Assumptions c41_lambda.

(** Lambdas at different offsets never have the same name, whatever the hash
    function and whichever files they are in. *)
Theorem c41_names : forall E args args' n n' s s' ns ns' s1 s1',
  is_call (b "lambda") args n -> is_call (b "lambda") args' n' ->
  eval E n s (Ok (ns, s1)) -> eval E n' s' (Ok (ns', s1')) ->
  s_off (node_site n) <> s_off (node_site n') ->
  exists a a', ns = [Sym a] /\ ns' = [Sym a'] /\ a_val a <> a_val a'.
Proof. exact lambda_names. Qed.
Print Assumptions c41_names.

(** Applying it: as a call of that macro. *)
Theorem c41_apply : forall E, permuting E -> forall u c args s params body r,
  get (b "__lambda" ++ u) (x_defs s) = Some (Macro params body) ->
  (forall vs s1, evals E args s (Ok (vs, s1)) -> x_defs s1 = x_defs s) ->
  invokes E (b "__lambda" ++ u) c args s r <->
  exists q, evals E args s q /\
    match q with
    | Ok (vs, s1) => called E (call_site c) (Macro params body) vs s1 r
    | _ => fails q r
    end.
Proof. exact lambda_applied. Qed.
Print Assumptions c41_apply.

Example c41_example : yields env1 (b "(%apply (%lambda (x :k 2) (v %x %k)) 1)") (b " (v 1 2)") /\
  yields env1 (b "(%map (%lambda x (v %x)) 1 2)") (b " (v 1) (v 2)").
Proof. split; shows. Qed.
Example c41_example_names : yields env1 (b "((%lambda x 1) (%lambda x 2))") (b "(__lambda1-1 __lambda1-15)").
Proof. shows. Qed.
(** The defect: a lambda does not outlive the macro call that made it. *)
Theorem c41_escape_refuted : exists src, rejects env1 src EMacroNotFound /\
  src = b "(%define (mk) (%lambda (x) %x)) (%apply (%mk) 1)".
Proof. eexists. split; [|reflexivity]. fails_with. Qed.
Print Assumptions c41_escape_refuted.
