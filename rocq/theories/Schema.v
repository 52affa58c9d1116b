(** * Model of the procedural macro [arguments!]

    [crates/seam_argparse_proc_macro/src/lib.rs]: at compile time it reads an
    argument schema such as
    [mandatory(1): literal, optional("sep"): literal["a", "b"], rest: any]
    and generates the code that checks and unpacks the arguments of a macro.
    Below, "proc macro" means that file.  [Args.arguments] is the same for a
    finished table of rules; here the table is computed. *)

From Coq Require Import String List Ascii Bool Arith.
From Verif Require Import Text Res Ast Args.
Import ListNotations.

(** ** Position patterns *)

(** [syn::Pat], as far as it matters.  Integer literals are natural numbers
    (the code panics, at compile time, on those that do not fit [usize]). *)
Inductive bound := BInt (n : nat) | BOther.
Inductive pat :=
| PatInt (n : nat)                                        (* 3 *)
| PatStr (s : bytes)                                      (* "key" *)
| PatLit                                                  (* any other literal *)
| PatRange (lo hi : option bound) (closed : bool)         (* 1..4, 1..=3, 1.., ... *)
| PatOr (cases : list pat)                                (* 1 | 2 *)
| PatOther.                                               (* x, _, (p), ... *)

(** Proc macro 392-456 [parse_finite_pattern]: the set of positions, as a
    list.  A panic is a compile-time failure. *)
Fixpoint finite (p : pat) : res (list argpos) :=
  match p with
  | PatInt n => Ok [PInt n]
  | PatStr s => Ok [PStr s]
  | PatLit => Ok []
  | PatRange (Some lo) (Some hi) closed =>
      match lo, hi with
      | BInt lo, BInt hi => Ok (map PInt (seq lo ((if closed then S hi else hi) - lo)))
      | _, _ => Ok []
      end
  | PatRange _ _ _ => Panic PExplicit
  | PatOr cases =>
      (fix each (cases : list pat) : res (list argpos) :=
         match cases with
         | [] => Ok []
         | c :: cases' => let* x := finite c in let* y := each cases' in Ok (x ++ y)
         end) cases
  | PatOther => Panic PExplicit
  end.

(** Proc macro 190-195: the generated [position_matcher], that is
    [match position { Some(pat) => true, _ => false }] as Rust understands it,
    where [macros.rs:190-205] turns the position into an [Option<usize>] or an
    [Option<&str>].  (Bounds that are not integer literals do not occur in
    schemas that compile for [usize] or [&str] in this model: [false].) *)
Fixpoint matches (p : pat) (pos : argpos) : bool :=
  match p, pos with
  | PatInt n, PInt i => i =? n
  | PatStr s, PStr k => beq k s
  | PatRange lo hi closed, PInt i =>
      match lo with None => true | Some (BInt lo) => lo <=? i | Some BOther => false end &&
      match hi with
      | None => true
      | Some (BInt hi) => if closed then i <=? hi else i <? hi
      | Some BOther => false
      end
  | PatOr cases, _ =>
      (fix any (cases : list pat) : bool :=
         match cases with [] => false | c :: cases' => matches c pos || any cases' end) cases
  | _, _ => false
  end.

(** ** The schema *)

(** Token trees.  The contents of a group are given as what they are used
    for: a position pattern (proc macro 165-172, parsed by [syn] in 395-397,
    [None] if that fails), a list of predicates or of types (492-503), or a
    function from arguments to success (506-520). *)
Inductive delim := Paren | Bracket | Brace | NoDelim.
Record group := Group {
  g_delim : delim; g_pat : option pat; g_preds : list pred; g_types : list argtype;
  g_test : node -> bool
}.
Inductive tt := TkIdent (s : bytes) | TkPunct (c : ascii) | TkGroup (g : group) | TkLit.

(** Proc macro 467-477: the names of the types. *)
Inductive kind := KLiteral | KString | KSymbol | KNumber | KSymbolic | KList | KAny.
Definition kind_named (s : bytes) : option kind :=
  assoc s [(b "literal", KLiteral); (b "string", KString); (b "symbol", KSymbol);
           (b "number", KNumber); (b "symbolic", KSymbolic); (b "list", KList); (b "any", KAny)].
Definition typ (k : kind) (ps : list pred) (ts : list argtype) : argtype :=
  match k with
  | KLiteral => TLiteral ps | KString => TString ps | KSymbol => TSymbol ps
  | KNumber => TNumber ps | KSymbolic => TSymbolic ps | KList => TList ts | KAny => TAny ps
  end.

(** Proc macro 464-528 [parse_argument_type].  For [list fn(..) {..}] the code
    generated has a type error, so that compilation fails as well. *)
Definition parse_type (ts : list tt) : res (argtype * list tt) :=
  match ts with
  | TkIdent s :: ts =>
      match kind_named s with
      | None => Panic PExplicit
      | Some k =>
          match ts with
          | TkGroup g :: ts' =>
              match g_delim g with
              | Bracket | Paren => Ok (typ k (g_preds g) (g_types g), ts')
              | _ => Panic PExplicit
              end
          | TkIdent f :: ts' =>
              if beq f (b "fn") then
                match k, ts' with
                | KList, _ => Panic PExplicit
                | _, TkGroup _ :: TkGroup body :: ts' => Ok (typ k [Satisfying (g_test body)] [], ts')
                | _, _ => Panic PExplicit
                end
              else Ok (typ k [] [], ts)
          | _ => Ok (typ k [] [], ts)
          end
      end
  | _ => Panic PExplicit
  end.

(** The state of the proc macro: the rules registered by the generated code
    ([out]), and [arg_struct] (proc macro 46-50), whose hash maps are
    association lists, newest binding first. *)
Record code := Code {
  k_rules : list (pat * arg); k_rest : option argtype;
  k_num : list (nat * arg); k_named : list (bytes * arg)
}.

(** Proc macro 207-222: register the type of each position. *)
Definition enter (a : arg) (c : code) (pos : argpos) : code :=
  match pos with
  | PInt i => Code (k_rules c) (k_rest c) ((i, a) :: k_num c) (k_named c)
  | PStr k => Code (k_rules c) (k_rest c) (k_num c) ((k, a) :: k_named c)
  end.

(** Proc macro 224-245: the comma after a rule. *)
Definition comma (ts : list tt) : res (list tt) :=
  match ts with
  | [] => Ok []
  | TkPunct c :: ts' => if Ascii.eqb c "," then Ok ts' else Panic PExplicit
  | _ => Panic PExplicit
  end.

(** Proc macro 119-246: the loop over the tokens. *)
Fixpoint read_schema (fuel : nat) (ts : list tt) (c : code) : res code :=
  match fuel with
  | 0 => OutOfFuel
  | S fuel =>
      match ts with
      | [] => Ok c
      | TkIdent s :: ts =>
          if beq s (b "rest") then
            match ts with
            | [] => Ok c
            | TkPunct p :: ts =>
                if Ascii.eqb p ":" then
                  let* '(t, ts) := parse_type ts in
                  let* ts := comma ts in
                  read_schema fuel ts (Code (k_rules c) (Some t) (k_num c) (k_named c))
                else Panic PExplicit
            | _ => Panic PExplicit
            end
          else if beq s (b "mandatory") || beq s (b "optional") then
            match ts with
            | [] => Ok c
            | TkGroup g :: TkPunct p :: ts =>
                if Ascii.eqb p ":" then
                  let* '(t, ts) := parse_type ts in
                  let a := if beq s (b "mandatory") then Mandatory t else Optional t in
                  match g_pat g with
                  | None => Panic PUnwrap
                  | Some pattern =>
                      let* set := finite pattern in
                      let* ts := comma ts in
                      read_schema fuel ts
                        (fold_left (enter a) set
                          (Code (k_rules c ++ [(pattern, a)]) (k_rest c) (k_num c) (k_named c)))
                  end
                else Panic PExplicit
            | _ => Panic PExplicit
            end
          else Panic PExplicit
      | _ => Panic PExplicit
      end
  end.
Definition compile (ts : list tt) : res code := read_schema (S (length ts)) ts (Code [] None [] []).

(** ** The generated code *)

(** [macros.rs:296-360] the loop of [ArgParser::new], with patterns as
    functions. *)
Fixpoint scan (c : code) (ps : list node) (position mandatory : nat) (acc : parsed) : res (parsed * nat) :=
  match ps with
  | [] => Ok (acc, mandatory)
  | p :: ps' =>
      let '(matcher, param, position) :=
        match p with
        | Attr k v _ _ => (PStr k, v, position)
        | _ => (PInt (S position), p, S position)
        end in
      match find (fun r => matches (fst r) matcher) (k_rules c) with
      | Some (_, a) =>
          let* _ := check (argtype_of a) param in
          let acc :=
            match matcher with
            | PInt i => Parsed ((i, param) :: p_num acc) (p_named acc) (p_rest acc)
            | PStr k => Parsed (p_num acc) ((k, param) :: p_named acc) (p_rest acc)
            end in
          scan c ps' position (if is_mandatory a then S mandatory else mandatory) acc
      | None =>
          match k_rest c with
          | Some t =>
              let* _ := check t p in
              scan c ps' position mandatory (Parsed (p_num acc) (p_named acc) (p_rest acc ++ [p]))
          | None =>
              Err (EErr (match p with Attr _ _ _ _ => EArgNamed | _ => EArgExcess end) (node_site p))
          end
      end
  end.

(** [macros.rs:291-373] [ArgParser::new]. *)
Definition scan_all (c : code) (call : node) (ps : list node) : res parsed :=
  let* '(acc, mandatory) := scan c ps 0 0 (Parsed [] [] []) in
  let last_site := match rev ps with n :: _ => node_site n | [] => node_site call end in
  if mandatory <? length (List.filter (fun r => is_mandatory (snd r)) (k_rules c))
  then Err (EErr EArgMissing last_site)
  else Ok acc.

(** Proc macro 249: [tuple_len], the greatest position. *)
Definition tuple_len (c : code) : nat := list_max (map fst (k_num c)).

(** Proc macro 249-376: the generated block.  [names] lists the keys of
    [arg_struct.named] in the order of the compile-time hash map. *)
Definition generated (c : code) (names : list bytes) (call : node) (ps : list node) : res args :=
  let* p := scan_all c call ps in
  let* xs := mapr (fun i => match assoc_nat i (k_num c) with
                            | Some a => extract_one call p a (PInt i) | None => Ok [] end)
                  (seq 1 (tuple_len c)) in
  let* ys := mapr (fun k => match assoc k (k_named c) with
                            | Some a => extract_one call p a (PStr k) | None => Ok [] end) names in
  let* rest :=
    match k_rest c with
    | Some t => mapr (convert t) (p_rest p)
    | None => Ok []
    end in
  Ok (Args (concat xs ++ concat ys) rest).
