# Formal model of Seam: design

Subject: `/repo` (Demonstrandum/seam), crates `seam` and
`seam_argparse_proc_macro`. Prover: Coq 8.16.1, sources in
`rocq/theories`, logical prefix `Verif`.

## Modelling conventions

* **Text** is `bytes := list ascii`, i.e. the UTF-8 bytes of a Rust `&str`;
  all offsets are byte offsets as in the code.  `Utf8.v` defines validity.
* **Outcomes** (`Res.v`): `Ok x`, `Err e` (a Rust `Err`), `Panic p` (a Rust
  panic: index out of range, `unwrap`, arithmetic overflow), `Hang` (an
  infinite loop recognised as such) and `OutOfFuel` (model artefact: the
  recursion budget ran out; theorems either exclude it or speak about every
  budget).  Error messages are represented by an error kind and a site,
  not by their English text.
* **Mutable state** (`Cell`, `RefCell`) is threaded explicitly.
* **External code** (crates, OS, hash seeds) is a field of a record `env`
  that every theorem quantifies over; assumptions about a field are visible
  hypotheses of the theorem that needs them, never axioms.
* Model files contain no proofs; specifications are in `Spec_*.v`
  and do not mention the model's helper functions; theorems are in
  `Properties_*.v`, each `exact`-ing a lemma of a `Proofs_*.v` file and
  followed by `Print Assumptions`, with a concrete `Example` beside it.

## Per property plan

| id | what is modelled | how proved |
|----|------------------|-----------|
| C01 | lexer.rs + parser.rs with fuel | fuel sufficiency by induction on remaining bytes; panic freedom; witness for the hang |
| C02 | same; grammar relation in `Spec_grammar.v` | soundness by induction on fuel, completeness by induction on derivations |
| C03 | token stream of a source | invariant `rest = skipn off src`, grammar of blanks |
| C04 | line/offset/column counters | invariant over lexer steps; witness for double counting |
| C05 | `peek`, `eof` | unfolding on explicit state plus characterisation of blank rests |
| C06 | blanks relation | from C02: tree values depend only on token texts |
| C07 | `escape_sanitize`, identifier and string scanning | induction on text |
| C08 | Display for nodes | induction on grammar derivation |
| C09 | SExp formatter, debug quoting | derivation of the printed text + completeness; unescaper as hypothesis with a concrete instance |
| C10 | PartialEq/Hash | nested induction on nodes |
| C11 | `escape_xml` | induction; independent decoder |
| C12 | XML formatter | relation between text and infoset (`Spec_markup.v`), unambiguity proved separately |
| C13 | HTML formatter | same relation with void elements and case-insensitive close tags |
| C14 | attribute printing | exact iff + witnesses |
| C15 | `document` of HTML | case analysis against declarative search predicates |
| C16 | `document` of XML | same |
| C17 | CSS formatter | induction, independent brace counter, witnesses |
| C18 | CSS formatter | induction, witness |
| C19 | all formatters | nested induction |
| C20 | `raw_text` with source buffers | from C02/C03 site invariants |
| C21 | expander | nested induction |
| C22–C27, C30–C34, C41, C44 | expander with builtin macros as open-recursive functions closed by fuel | symbolic execution + induction on argument lists |
| C28 | `%reverse` | list induction |
| C29 | `%sort` | stable sort correctness; transitivity of the comparator on classes; witness |
| C35 | include set, path order | sortedness + first-match lemma; witness |
| C36 | hash order oracle | permutation independence; witness pair |
| C37 | fuel | monotonicity of every builtin in its recursive callbacks; divergence for all fuels by induction |
| C38 | `macros.rs` generically + the rule tables of all builtins | induction over parameter list |
| C39 | YAML event sink | refinement against a recursive specification on document trees; for all other streams of events against rules (`Spec_events.v`) |
| C40 | TOML traverser | same |
| C42 | `bin.rs` argument loop | induction on argv; witnesses |
| C43 | source-buffer ownership | invariant over expansion; witness. `c43_direct` (`Properties_live.v`) has a condition that can be read off the texts: files are included only directly (`includes_directly` in `Spec_live.v`), proved with C74 |
| C45 | fixed-point arithmetic on Z | arithmetic |
| C46 | BTreeSet insertion with the `GlobPath` order | sorted insertion; the outcome determined by the pairwise answers in all cases |
| C47 | whitespace fields | invariant over parser and over expansion |
| C48 | UTF-8 predicate | invariant of lexer positions |
| C49 | plain-text formatter | from C02/C08: the printed text is the source piece by piece |
| C50 | `register_invocation`'s vector and its reallocations | refuted by a witness |
| C51 | every `unwrap`, index and arithmetic of the expander as an explicit `Panic` | one induction over the fuel; causes stated as hypotheses on the program and the world |
| C52 | sites | invariant "every site lies in a source that was read" over the whole expander |
| C53 | atom values and keywords | invariant "valid UTF-8" over the whole expander |
| C54 | `%markdown` | symbolic execution, from C39 and C40 |
| C55 | `Display` of the four error types, `Site` accessors | line lookup by induction on the source; from C52; witnesses for every width limit |
| C56 | procedural macro `arguments!` (parser of the schema, compile-time pattern enumeration, generated code) | refinement against a declarative reading of schemas; instances for every schema of the expander |
| C57 | `ArgPredicate::check`, `ArgType::check`, `ArgParser` | declarative complaint relation (`Spec_errors.v`), equivalence by induction on the arguments |
| C58 | `bind`, `bind_list`, `create_macro` | declarative mismatch relation, induction on patterns |
| C59 | `%log`, `%os/env`, `%format` | symbolic execution of all outcomes |
| C60 | `str::split` as used by `%get` | declarative cutting relation (`Spec_text.v`), induction on the text |
| C61 | `str::parse` for `usize` and `i64`, `Display` of integers | declarative numerals, induction on the digits |
| C62 | `std::path` as used by `%include`, `%embed`, `%glob` and the include directories | declarative components, induction from the last slash |
| C63 | programs stratified by levels of names | well-founded induction on the level, then on the nesting depth; total correctness of each builtin |
| C64 | the line written by `%log`, `Display` of `Site` | log kept in the invariant of C52 and C53; only for expansions that succeed, because the model drops the log with the state on an error |
| C65 | `parser.rs`, `lexer.rs` on ill-formed texts | declarative relation for the first defect; both directions by induction (fuel, derivations) |
| C66 | `assemble/css.rs`, whitespace, trimming and quoting | declarative relation for values, rules, sheets and their first fault; both directions by induction |
| C67 | the whole expander | big-step rules in `Spec_lang.v`, reading sources by the attributed grammar of C69 (so the environments are those that read UTF-8 text, `reads_text`); soundness by induction on the budget, completeness by mutual induction on derivations, building the hash-map order as it goes |
| C68 | `text_gen`, `sexp_gen`, `display_node`, `xml_gen`, `html_gen`, `formatted`, `origin_of` | relations `Written`, `Xml`/`NoXml`, `Html`/`NoHtml`, `Inner` in `Spec_element.v`; totality by induction on trees, then both directions |
| C69 | `parse`, `consume`, `parse_expr`, `parse_items` | attributed grammar `Next`, `Tree`, `Forest`, `Fault`, `Syntax` over cursors in `Spec_place.v`; equal to the parser's own relation on lexer states, faults by induction both ways |
| C70 | `main`, and through it the whole model | rules `Seam`, `Printed`, `Translated`, `Output`, `Page` in `Spec_seam.v` over those of C42, C67, C68, C69; the orders of the several expanders are chosen job by job; no model function of parser, expander or formatters is mentioned in them except the tables and library fields listed under C67 |
| C71 | `parse`, `expand`, all formatters, for two sources | `Reworded`, `alike`, `alike_outcome`, `preless` in `Spec_moved.v`, over the grammar and the positions of C65; `lambda_free`: the model's own evaluator with another answer put in the place of `%lambda` gives the same outcome. Examples show that both exceptions (lambda names, `pre`) are needed |
| C72 | `expand`, twice; `sexp_gen` | `macro_free` (`Spec_expand.v`), `symbol_unused`, `dates_are_dates` in `Spec_final.v`; proved by induction over the rules of C67. `c72_symbol_refuted` shows that the condition on `%symbol` is needed |
| C73 | `do_glob` with `lossy` (`Lossy.v`), the scanner of `core::str::lossy` | `Legible` in `Spec_lossy.v`: the Unicode rule of maximal subparts |
| C74 | `expand` in two environments | `without`, `confined`, `same_but` in `Spec_power.v`; proved by induction over the rules of C67. `c74_symbol_refuted` shows that `%symbol` has to be withheld too |
| C75 | `expand` of two programs | `unmentioned`, `choosable`, `defines`, `same_result` in `Spec_dead.v`; proved by induction over the rules of C67. `c75_roundabout_refuted` shows three ways in which a name can be used without being mentioned |
| C76 | `expand` of two programs | `unrelated`, `rearranged`, `definitions` in `Spec_swap.v`, `alike` in `Spec_moved.v`; proved from the rules of C67, with C74 and C75. The equality is exact for trees; for texts it is up to positions (C71), hence the condition on lambdas. `c76_roundabout_refuted` shows two nodes past which a definition must not be moved |
| C77 | `expand` of a family of programs | `doubling` in `Spec_growth.v`; the text is read with the grammar of C02, then induction on the number of definitions |
| C78 | `expand` of a family of programs | `step`, `stops_with`, `simulator` in `Spec_machine.v`; a node stands for a configuration; a step of the machine is a step into a deeper call, so that a run of the machine is bounded by the budget and the other way around |
| C79 | `expand_node`, `expand` | `depth`, `nested` in `Spec_depth.v`; induction on the tree with the budget and the state arbitrary |
| C80 | `expand_nodes`, `expand_node` | `after` in `Spec_sequence.v`; induction on the first part with the state and the outcome arbitrary |
| C81 | `lexer.rs`, `parser.rs` | the grammars of C02, C65 and C01 (`Program`, `BadProgram`, `Dangling`), which are closed under appending after a line feed; `further`, `spaced` in `Spec_joined.v`: the parser is compared with itself on the parts |

## Model files

| file | code |
|------|------|
| `Text.v`, `Res.v`, `Utf8.v`, `Lossy.v`, `Debug.v` | byte strings, outcomes, UTF-8, `to_string_lossy`, `{:?}` of `str` (which characters are printable is a parameter) |
| `Ast.v` | `parser.rs` node types, accessors, `Display`, `PartialEq`, `Hash`; `tokens.rs` `Site`, `Token` |
| `Lexer.v`, `Parser.v` | `lexer.rs`, `parser.rs` |
| `Format.v` | `assemble/{mod,text,sexp,xml,html,css}.rs` |
| `Args.v` | `macros.rs` with the rule tables of all builtin macros |
| `Schema.v` | `seam_argparse_proc_macro/src/lib.rs` |
| `Scope.v`, `State.v`, `Bind.v`, `Data.v`, `Sorting.v`, `Paths.v`, `Numbers.v`, `Expander.v` | `expander.rs` |
| `Env.v` | the outside world, see below |
| `Report.v` | `Display` of `LexError`, `ParseError`, `ExpansionError`, `GenerationError`; `Site` |
| `Cli.v` | `bin.rs`, `lib.rs` of crate `seam` |

Every definition there cites the lines it models; simplifications are stated
in the same comment.

## What is false of the code

These theorems state that a claim one would expect does not hold, with a
concrete program (evaluated by the kernel) or a construction for every
parameter.

| theorem | defect |
|---------|--------|
| `c01_always_returns_refuted` | a backslash at the end of a symbol at the end of the source makes the lexer loop forever |
| `c04_line_right_refuted` | newlines inside strings are counted twice, later line numbers are too large |
| `c09_escaped_symbols_refuted` | a symbol with an escaped character is not read back from S-expression output |
| `c14_xml_breakout_refuted`, `c14_html_breakout_refuted`, `c14_ampersand_refuted` | attribute values are not escaped: other attributes and elements can be injected, ampersands change meaning |
| `c17_balanced_refuted` | an at-rule without nested rules gives unbalanced braces |
| `c18_error_refuted` | the CSS formatter panics on empty rules and on list heads |
| `c19_no_panic_refuted` | the XML and HTML formatters panic on an empty symbol at the head of a list |
| `c20_exact_refuted` | whitespace before the closing parenthesis of `pre` is printed twice |
| `c29_mixed_refuted` | the comparison of `%sort` is not transitive on mixed keys; the standard library may panic |
| `c35_order_refuted` | include directories are searched alphabetically, not in the order given |
| `c36_output_refuted`, `c36_place_refuted` | output and error position depend on hash seeds |
| `c41_escape_refuted` | a lambda does not outlive the macro call that made it |
| `c42_include_refuted` | `-I` with `--` in the directory is read as another option |
| `c43_refuted` | `%namespace` around `%include` returns nodes that point into freed source text |
| `c44_panic_refuted` | an attribute whose value expands to nothing panics |
| `c50_refuted` | nested invocations leave a dangling reference, which is read |
| `c55_always_shown_refuted`, `c55_marks_on_line_refuted` | an error far to the right makes its own report panic; for text of several lines the marks are too long |
| `c56_overlap_refuted` | an argument schema with overlapping positions compiles to code that can panic |
| `c79_bounded_refuted` | no depth of recursion is enough for every source: brackets alone overflow the stack |
| `c81_space_refuted`, `c81_nothing_refuted` | well-formed sources joined by a space, or by nothing, need not be read as both (not a defect) |

## Trusted base

* **Coq 8.16.1**: kernel, its `vm_compute` machine (used for the concrete
  examples and witnesses), the parser and printer of statements, and the OCaml
  runtime below them.  No kernel check is switched off, no plugin is used.
* **Axioms**: none.  `Print Assumptions` follows every theorem of the
  `Properties_*.v` files and prints `Closed under the global context` for each
  of them.  `coqchk -o` on all of these files and everything they use reports
  `Axioms: <none>`.  A search for constants without a body finds, as for any
  development that loads std++ (through `Scope.v`, for finite maps) and hence
  `Coq.ssr.ssrunder`, the seven constants `Coq.ssr.ssrunder.Under_rel.*`;
  these are the fields of an opaque-sealed module of Coq's own standard
  library (with a definition behind the seal, in that file), and no theorem
  here depends on them.
* **The transcription** of the Rust code into the model files, which is by
  hand; the code was neither compiled nor run.  `Conformance.v` replays the
  examples of the project's own test-suite and documentation on the model.
* **The specifications** `Spec_*.v` and the statements in `Properties_*.v`.

### Taken from outside, as fields of `env` (`Env.v`), `world` (`Cli.v`) and `screen` (`Report.v`)

Every theorem holds for all values of these, unless a hypothesis of the
theorem restricts them.  For each hypothesis an instance is exhibited.

* file contents, existence of files, standard input, environment variables;
  each is a function, i.e. the world does not change during a run;
* `descape` (escapes in strings), `str::parse::<f64>`, fixed-point parsing,
  `chrono`, `formatx`, `markdown`, `yaml_rust2` (as the sequence of its
  events), `toml`, `glob`, `regex` (not used by any builtin rule);
* hash seeds: the iteration order of a hash map is an arbitrary function of
  its seed and its keys;
* `slice::sort_by` is a stable sort if the comparison is a total preorder on
  the elements; otherwise it panics or permutes them, as `e_unsorted` decides
  from the answers of the comparison;
* collecting into a `BTreeSet` keeps, for a comparison that is a total preorder
  on the elements, the first of each kind in order, and, for one that always
  answers "less" (the `%glob` default), all elements in reverse; for any other
  (`%glob` by a time that only some files have) `e_unlisted` decides from the
  answers of the comparison which elements are there and in which order;
* `unicode_width`, the limit on formatting widths (Rust since 1.87 panics above
  65535), which characters `{:?}` prints literally; for the program as a whole
  (`w_shows` in `Cli.v`) whether the report on an error can be formatted, which
  C55 answers for a given screen and source;
* `DefaultHasher`: an arbitrary function of what is fed to it.

### Not modelled

* The English text of error messages (an error is its kind and its site); the
  texts of the nested errors that `%include` and `%sort` put inside their
  message, and hence a panic while formatting those.
* Memory: stack overflow and allocation failure.  The model's recursion
  budget (`fuel`) is not a resource of the program: theorems either give a
  sufficient budget or hold for every one.  Use after free is modelled in two
  places only: source texts of included files (C43) and references to
  invocations (C50).  A report of an error inside a freed source text reads
  freed memory; `Report.v` treats the text as still there.
* `to_string_lossy` outside `%glob` (`lib.rs:66`, `parse/mod.rs:14`,
  `bin.rs:69`): the paths there come from command line arguments and source
  text, which are UTF-8, so it changes nothing (C73).
* Terminal colours, what is written to standard error, failing writes,
  command line arguments that are not UTF-8 (`env::args` panics).
* `proc_macro` token streams are modelled after `syn` has split them into
  groups, words and literals, and the contents of groups after `syn` has
  parsed them; that `rustc` accepts the generated code is not modelled (it
  rejects a function predicate on a `list`).
* Windows path syntax.
* Accessors and conversions no other modelled code calls (`into_value`,
  `extract_*`, `get_source`), `Debug` of nodes, the tests.
