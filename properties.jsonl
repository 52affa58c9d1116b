{"id": "C01", "title": "Parsing always returns", "statement": "For every UTF-8 source text, Parser::parse returns either a tree or an error: it never panics. It always terminates unless the source ends in a backslash; a source that ends with an identifier whose last byte is an unescaped backslash makes the parser loop forever (defect, witnessed).", "quantifier": "every UTF-8 byte string as source", "why_tests_cant": "infinitely many sources; non-termination and panics on rare shapes are invisible to example tests", "anchors": ["crates/seam/src/parse/parser.rs: Parser::parse, parse_expr, parse_list, parse_keyword", "crates/seam/src/parse/lexer.rs: Lexer::consume, consume_char, consume_identifier_string"]}
{"id": "C02", "title": "The parser accepts exactly the S-expression grammar", "statement": "For every UTF-8 source, Parser::parse succeeds with tree t if and only if the source is derivable in the documented S-expression grammar (symbols, numbers, strings, triple-quoted strings, :keyword attributes, parenthesised lists, `;' comments) and t is the tree of that derivation, with the same atom values and the same leading whitespace.", "quantifier": "every UTF-8 source and every candidate tree", "why_tests_cant": "needs both soundness and completeness against an independent grammar for all strings", "anchors": ["crates/seam/src/parse/parser.rs: Parser::parse", "crates/seam/src/parse/lexer.rs: Lexer::consume"]}
{"id": "C03", "title": "Token spans tile the source", "statement": "Every token reported by the lexer has a byte span lying inside the source, on character boundaries, whose text is exactly the token's text; spans of successive tokens are disjoint and increasing, and every source byte outside all spans is whitespace or part of a `;' comment.", "quantifier": "every UTF-8 source, every token of it", "why_tests_cant": "coverage of all bytes of all sources", "anchors": ["crates/seam/src/parse/lexer.rs: Lexer::consume, consume_whitespace, site", "crates/seam/src/parse/tokens.rs: Site::view"]}
{"id": "C04", "title": "Source positions in errors are right", "statement": "For every token of every source: byte offset and byte column are exact (start_of_line is 0 or the byte after a newline, with no newline between it and the token), so rendering an error at that site never slices out of range. The line number is 1 plus the number of preceding newlines provided no preceding token contains a newline; in general every newline inside a string or an escaped identifier is counted twice (defect, witnessed).", "quantifier": "every source and every token position", "why_tests_cant": "an arithmetic invariant over all histories of the three position counters", "anchors": ["crates/seam/src/parse/lexer.rs: increment_byte_offsets, next_line, consume_string, consume_keyword", "crates/seam/src/parse/tokens.rs: Site::start_of_line, end_of_line, line_slice, line_column"]}
{"id": "C05", "title": "Peeking and end-of-file tests do not disturb the lexer", "statement": "For every lexer state, peek returns exactly what consume would return and leaves all position counters unchanged; eof leaves them unchanged and is true exactly when only whitespace and comments remain.", "quantifier": "every source and every reachable lexer position", "why_tests_cant": "all states, including error outcomes", "anchors": ["crates/seam/src/parse/lexer.rs: Lexer::restore, peek, eof"]}
{"id": "C06", "title": "Comments are invisible", "statement": "Replacing any run of whitespace/comments between two tokens by another one (also separating) never changes the parsed structure or any atom value; the leading whitespace attached to a token after a comment is exactly the text from the newline ending the last comment to the token.", "quantifier": "every source, every position of a blank run, every comment text", "why_tests_cant": "all contexts in which a comment may occur", "anchors": ["crates/seam/src/parse/lexer.rs: Lexer::consume_whitespace"]}
{"id": "C07", "title": "Escapes in identifiers and strings", "statement": "In identifiers a backslash makes the following character (any character, including parentheses, quotes and whitespace) part of the identifier; the resulting symbol value is the identifier text with every backslash removed, so no symbol or number value ever contains a backslash (even `\\\\\\\\' vanishes). In strings a backslash-quote never terminates the string.", "quantifier": "every identifier and string text", "why_tests_cant": "all escape placements", "anchors": ["crates/seam/src/parse/parser.rs: escape_sanitize, escape_string", "crates/seam/src/parse/lexer.rs: consume_identifier_string, consume_string"]}
{"id": "C08", "title": "Printing a parsed tree reproduces the source", "statement": "For every source without comments, backslashes and quotes that parses, displaying the nodes of the tree in order gives back the source up to trailing whitespace.", "quantifier": "every such source", "why_tests_cant": "byte-exact equality for all sources", "anchors": ["crates/seam/src/parse/parser.rs: fmt::Display for ParseNode", "crates/seam/src/assemble/sexp.rs: SExpFormatter::generate"]}
{"id": "C09", "title": "Printed S-expressions parse back to the same tree", "statement": "For every tree whose symbols, numbers and keywords are lexable without escapes and whose whitespace separates them, the output of the S-expression formatter parses back to an equal tree, including string values containing quotes, backslashes, newlines and control characters (given that the string unescaper inverts Rust debug quoting). Symbols that need escapes do not survive (defect, witnessed).", "quantifier": "every printable tree, any depth and width", "why_tests_cant": "round trip over all trees", "anchors": ["crates/seam/src/assemble/sexp.rs: SExpFormatter::generate_node", "crates/seam/src/parse/parser.rs: Parser::parse"]}
{"id": "C10", "title": "Node equality is structural equality up to whitespace and position", "statement": "ParseNode equality is an equivalence relation, holds exactly when the two trees agree after forgetting sites and whitespace, and two nodes feed identical data to the hasher exactly if they are equal; what one node feeds is never a proper prefix of what another does.", "quantifier": "every pair/triple of nodes", "why_tests_cant": "all trees; Hash/Eq agreement is a law over all pairs", "anchors": ["crates/seam/src/parse/parser.rs: PartialEq for ParseNode, Hash for ParseNode"]}
{"id": "C11", "title": "XML escaping is safe and reversible", "statement": "For every string, escape_xml yields text without <, >, double or single quotes, in which every & starts one of the five entities; decoding the entities gives back the original string (hence escaping is injective); valid UTF-8 in gives valid UTF-8 out, so the unchecked conversion is sound.", "quantifier": "every byte string / every UTF-8 string", "why_tests_cant": "all strings, incl. multi-byte characters", "anchors": ["crates/seam/src/assemble/mod.rs: escape_xml"]}
{"id": "C12", "title": "XML output is well formed and means the tree", "statement": "Whenever the XML formatter succeeds on a tree with legal tag/attribute names, plain attribute values (no double quote, < or &) and blank whitespace, its output is well-formed XML content whose unique reading is exactly the tree: same elements in the same nesting, same attributes, and character data equal to the atoms' values with surrounding whitespace - whatever markup characters the atoms contain.", "quantifier": "every tree of any depth", "why_tests_cant": "well-formedness and absence of injection for all trees and texts", "anchors": ["crates/seam/src/assemble/xml.rs: XMLFormatter::generate_xml_node, display_attribute"]}
{"id": "C13", "title": "HTML output is balanced and means the tree", "statement": "Whenever the HTML formatter succeeds on a tree of ordinary elements (legal names, plain attribute values, no raw text, no pre/textarea/title/style/script element), its output reads back uniquely as the tree: every non-void element is closed by its lower-cased tag in nesting order, void elements have neither children nor closing tag, text is inert.", "quantifier": "every tree of any depth", "why_tests_cant": "balance for all nestings", "anchors": ["crates/seam/src/assemble/html.rs: HTMLFormatter::generate_html_node, VOID_ELEMENTS"]}
{"id": "C14", "title": "Attribute values cannot break out of their quotes", "statement": "The XML and HTML formatters print attribute values between double quotes verbatim: the printed attribute reads back as the same value exactly when the value contains no double quote; a value with a double quote can introduce further attributes or markup, so that two different trees give the same page (defect, witnessed for both formatters); ampersands are not escaped either (defect, witnessed).", "quantifier": "every attribute value", "why_tests_cant": "security property over all strings", "anchors": ["crates/seam/src/assemble/xml.rs: display_attribute", "crates/seam/src/assemble/html.rs: generate_html_node"]}
{"id": "C15", "title": "HTML document wrapper", "statement": "For every tree, HTML document output is the body output wrapped with: a doctype iff no top-level !doctype list is present; html open/close tags iff additionally no top-level html list is present; an empty head iff additionally no head list within two levels; body open/close iff no body list within two levels; opening and closing wrappers always match, and the empty tree gives the fixed default page.", "quantifier": "every tree, every letter case of the tag names", "why_tests_cant": "all combinations and depths of the four searches", "anchors": ["crates/seam/src/assemble/html.rs: HTMLFormatter::document", "crates/seam/src/parse/parser.rs: SearchTree::search_node"]}
{"id": "C16", "title": "XML document declaration", "statement": "For every tree, XML document output is the body output, preceded by the XML declaration exactly when the first node is not a ?xml list (any letter case); the empty tree yields just the declaration.", "quantifier": "every tree", "why_tests_cant": "all trees and cases", "anchors": ["crates/seam/src/assemble/xml.rs: XMLFormatter::document"]}
{"id": "C17", "title": "CSS rules have balanced braces and one declaration per attribute", "statement": "Whenever CSS generation of an ordinary rule succeeds, the output is `selectors {', one `property: value;' line per attribute in order, then `}'; any tree of ordinary rules with brace-free atoms gives brace-balanced CSS. An @-rule without a nested rule gets a closing brace without an opening one (defect, witnessed), and a rule without properties is rejected because its last selector is read as a property (defect, proved).", "quantifier": "every rule and every stylesheet tree", "why_tests_cant": "all trees", "anchors": ["crates/seam/src/assemble/css.rs: generate_css_rule, generate_special_selector, convert_value"]}
{"id": "C18", "title": "CSS errors are reported, not panics", "statement": "CSS generation never panics on a stylesheet in which every rule list starts with an atom; a rule list that is empty or starts with a non-atom panics while constructing its error (defect, witnessed).", "quantifier": "every stylesheet tree", "why_tests_cant": "all trees", "anchors": ["crates/seam/src/assemble/css.rs: generate_css_rule"]}
{"id": "C19", "title": "Formatters fail only where documented", "statement": "Plain-text and S-expression formatters succeed on every tree. The XML formatter succeeds exactly on trees of non-raw atoms, elements headed by a non-empty symbol with atomic attribute values in front of their children, and declarations of symbols, numbers and attributes. The XML and HTML formatters never hang, and panic only on trees with a list headed by the empty symbol (for HTML also: a pre element whose source text cannot be cut out, which never happens on parsed sources, or a style element with a rule that makes the CSS formatter panic); an empty head symbol, obtainable from source text, makes them panic (defect, witnessed).", "quantifier": "every tree", "why_tests_cant": "absence of panics for all trees", "anchors": ["crates/seam/src/assemble/text.rs: generate", "crates/seam/src/assemble/sexp.rs: generate", "crates/seam/src/assemble/xml.rs: generate_xml_node", "crates/seam/src/assemble/html.rs: generate_html_node"]}
{"id": "C20", "title": "pre elements reproduce their source text", "statement": "For every parsed, macro-free source, the content of a (pre ...) element is exactly the source text between the start of its first child (with its whitespace less one separating space) and its closing parenthesis, followed by the closing whitespace of ordinary elements; hence whitespace in front of the closing parenthesis is written twice (defect, witnessed).", "quantifier": "every source and every pre element in it", "why_tests_cant": "exact byte equality for all sources", "anchors": ["crates/seam/src/assemble/html.rs: raw_text, generate_html_node"]}
{"id": "C21", "title": "Macro-free input expands to itself", "statement": "Expanding any tree in which no symbol starts with % succeeds, returns the identical tree (including whitespace and sites) and changes no definition.", "quantifier": "every macro-free tree, every scope", "why_tests_cant": "identity over all trees", "anchors": ["crates/seam/src/parse/expander.rs: Expander::expand_node, expand_nodes"]}
{"id": "C22", "title": "Variables: definition, eager value, use", "statement": "(%define x body...) expands body at once and defines x to the result, removes itself from the output and changes no other definition; afterwards %x expands to that (macro-free) value with the first node's whitespace replaced by the call site's, however the variables used in body are later redefined.", "quantifier": "every scope, name, body and later history of definitions", "why_tests_cant": "quantifies over histories of redefinitions", "anchors": ["crates/seam/src/parse/expander.rs: expand_define_macro, create_macro, expand_node"]}
{"id": "C23", "title": "Function macros evaluate lazily, at each call", "statement": "(%define (f params) body...) stores the body unexpanded; each call (%f args) expands args in the caller's scope, binds them, and expands the body in a copy of the scope current at the call (dynamic scoping).", "quantifier": "every scope at definition time and at call time", "why_tests_cant": "quantifies over scopes", "anchors": ["crates/seam/src/parse/expander.rs: expand_define_macro, expand_macro, apply_macro"]}
{"id": "C24", "title": "Macro bodies cannot change the caller's definitions", "statement": "For any user-macro call, %match or %for: whatever its body defines, the definitions visible to the caller afterwards are exactly those after evaluating the arguments; only log output escapes.", "quantifier": "every body, scope and recursion depth", "why_tests_cant": "noninterference over all bodies", "anchors": ["crates/seam/src/parse/expander.rs: apply_macro, create_subcontext, expand_match_macro, expand_for_macro"]}
{"id": "C25", "title": "Argument binding", "statement": "Binding an argument list to a parameter list: positional arguments match positional parameters in order, keyword arguments may appear anywhere, missing keywords take their defaults, &rest receives exactly the surplus positional arguments in order, &&rest exactly the surplus keyword arguments; too few or surplus positional arguments without &rest, and unknown keywords without &&rest, are errors; nothing else is bound or changed.", "quantifier": "every parameter list and argument list", "why_tests_cant": "all interleavings of positional and keyword arguments", "anchors": ["crates/seam/src/parse/expander.rs: bind, bind_list"]}
{"id": "C26", "title": "%match takes the first matching clause", "statement": "%match expands to the body of the first clause whose pattern binds, in a scope extended by that binding only (failed clauses leave no trace), and to nothing if no clause matches.", "quantifier": "every clause list and value", "why_tests_cant": "all clause lists", "anchors": ["crates/seam/src/parse/expander.rs: expand_match_macro"]}
{"id": "C27", "title": "%ifdef is lazy and exact", "statement": "%ifdef expands exactly the branch selected by whether the name is currently defined; the other branch is never expanded, so its errors, definitions and log output do not happen.", "quantifier": "every scope and branch pair", "why_tests_cant": "quantifies over branch contents", "anchors": ["crates/seam/src/parse/expander.rs: expand_ifdef_macro"]}
{"id": "C28", "title": "%reverse reverses", "statement": "%reverse of a list yields the elements in reverse order with the whitespace pattern kept in place; reversing twice is the identity; it never panics.", "quantifier": "every list", "why_tests_cant": "all lengths and whitespace patterns", "anchors": ["crates/seam/src/parse/expander.rs: expand_reverse_macro"]}
{"id": "C29", "title": "%sort sorts", "statement": "When comparison of the keys is a total preorder on the given list, %sort returns a stable sorted permutation of the elements with the whitespace pattern kept in place, descending for :order descending; comparison is a total preorder on all-integer keys and on all non-numeric keys. On mixed keys it is not transitive (defect, witnessed), so sorting panics or returns the elements in whatever order the standard library likes, losing none.", "quantifier": "every list, key function and order", "why_tests_cant": "sortedness/permutation/stability for all lists", "anchors": ["crates/seam/src/parse/expander.rs: expand_sort_macro"]}
{"id": "C30", "title": "%join, %concat, %string and %raw", "statement": "%join sep a1..an is a1 sep a2 ... sep an (plus sep when :trailing true); %concat equals %join with an empty separator; %string/%raw concatenate values with their whitespace; kinds of the results are as documented.", "quantifier": "every argument list", "why_tests_cant": "all lengths", "anchors": ["crates/seam/src/parse/expander.rs: expand_join_macro, expand_concat_macro, expand_string_macro, expand_raw_macro"]}
{"id": "C31", "title": "%get follows paths", "statement": "%get with a path follows each component: an in-range index selects that element (of any kind), otherwise the first attribute with that keyword; a missing component or a non-list is an error; composing two paths equals one joined path.", "quantifier": "every nested list and path", "why_tests_cant": "all nestings and paths", "anchors": ["crates/seam/src/parse/expander.rs: expand_get_macro"]}
{"id": "C32", "title": "%map, %filter, %splat, %list, %strip, %do, %apply", "statement": "%map f over arguments concatenates the results of f on each; %filter additionally drops exactly the results that are a single (); %splat flattens exactly one level; %list wraps; %strip clears only the first node's whitespace; %do is the identity on expanded arguments; %apply f args has the outcome of (%f args) for user macros and macro-free args that both receive in the same form (a call clears the whitespace before its first argument, %apply does not).", "quantifier": "every argument list and macro", "why_tests_cant": "all lists", "anchors": ["crates/seam/src/parse/expander.rs: expand_map_macro, expand_filter_macro, expand_splat_macro, expand_list_macro, expand_strip_macro, expand_do_macro, expand_apply_macro"]}
{"id": "C33", "title": "%for iterates in order", "statement": "%for p in list body expands to the concatenation, in list order, of body expanded with p bound to each item; an empty list yields nothing; a failing bind or body fails the loop.", "quantifier": "every list, pattern and body", "why_tests_cant": "all lengths", "anchors": ["crates/seam/src/parse/expander.rs: expand_for_macro"]}
{"id": "C34", "title": "%namespace prefixes definitions", "statement": "After (%namespace ns body) the scope is the old scope plus, for every name visible at the end of body, a copy under ns<sep>name - independent of hash order; no unprefixed definition made in body leaks; the body's output is returned unchanged.", "quantifier": "every scope, body, separator and hash order", "why_tests_cant": "all scopes and iteration orders", "anchors": ["crates/seam/src/parse/expander.rs: expand_namespace_macro"]}
{"id": "C35", "title": "Include search order", "statement": "%include/%embed use the first directory, in sorted path order of the set of include directories together with `.', in which the file (for %include also with .sex appended) is readable; the order in which directories were supplied is irrelevant, contrary to the documentation (defect, witnessed).", "quantifier": "every set of directories, every file system", "why_tests_cant": "all directory orders and file systems", "anchors": ["crates/seam/src/parse/expander.rs: add_includes, expand_include_macro, expand_embed_macro"]}
{"id": "C36", "title": "Expansion does not depend on hash-map order", "statement": "Binding arguments gives the same state, or the same kind of error, under every hash-map iteration order whenever no &&rest parameter receives two surplus keywords; with two, reversing the order changes its value, so program output depends on the random hash seed (defect, witnessed). A program in whose run that never happened has the same output, definitions and log under every order.", "quantifier": "every pair of iteration orders", "why_tests_cant": "nondeterminism across runs", "anchors": ["crates/seam/src/parse/expander.rs: bind_list"]}
{"id": "C37", "title": "Termination and fuel-independence of expansion", "statement": "The result of expansion, once any recursion budget suffices, is the same for every larger budget (so the result is well defined); expansion terminates on every macro-free tree; a macro that calls itself, a variable whose value mentions it and a file that includes itself exhaust every budget (the real expander overflows its stack: no cycle detection).", "quantifier": "every program and every recursion budget", "why_tests_cant": "divergence is a statement about all budgets", "anchors": ["crates/seam/src/parse/expander.rs: expand_macro, expand_include_macro"]}
{"id": "C38", "title": "Macro argument checking is sound", "statement": "If argument parsing of a builtin macro succeeds, all mandatory arguments are present, every argument has its declared type and allowed value, so converting it to the declared Rust type never panics; any extra, missing or ill-typed argument is an error.", "quantifier": "every rule set and argument list", "why_tests_cant": "all argument lists", "anchors": ["crates/seam/src/parse/macros.rs: ArgParser::new, ArgType::check, check_all", "crates/seam_argparse_proc_macro/src/lib.rs: arguments, parse_finite_pattern"]}
{"id": "C39", "title": "%yaml/%json definitions", "statement": "For every YAML document whose mapping keys are scalars and which has no aliases, the YAML macro produces the corresponding nested attribute lists and defines each nested value under its /-joined path, and only those; a mapping or sequence used as a key makes it panic (defect, witnessed). For every other stream of parser events (aliases, collections as keys, several documents, cut short, ill-nested) the outcome is the one given by the rules of the specification, which is unique.", "quantifier": "every document tree", "why_tests_cant": "all nestings", "anchors": ["crates/seam/src/parse/expander.rs: expand_yaml, EventSink::on_event"]}
{"id": "C40", "title": "%toml definitions", "statement": "For every TOML table the macro returns the corresponding nested attribute list, and after it every path to a value is defined as exactly that value's node; all definitions are exactly those.", "quantifier": "every table", "why_tests_cant": "all nestings", "anchors": ["crates/seam/src/parse/expander.rs: expand_toml, Traverser"]}
{"id": "C41", "title": "Lambdas", "statement": "%lambda evaluates to a symbol naming a new macro determined by its source site, and lambdas at different offsets never share a name; applying that symbol in the same scope equals calling a macro with those parameters and body; a lambda returned out of a user macro is no longer defined for the caller (defect, witnessed).", "quantifier": "every parameter list, body and scope", "why_tests_cant": "all scopes", "anchors": ["crates/seam/src/parse/expander.rs: expand_lambda_macro, create_macro", "crates/seam/src/parse/tokens.rs: Site::uuid"]}
{"id": "C42", "title": "Command line", "statement": "The command line is processed left to right: the last target flag wins, no target is fatal, unknown options are fatal, no files (or `-') reads standard input first; the first source that fails ends the program with code 1 after the output of the earlier ones (with a panic if the report itself cannot be formatted); options containing `--' after the first byte are interpreted by the text after it (defect: an include directory containing -- is rejected or taken as a target, witnessed).", "quantifier": "every argument vector", "why_tests_cant": "all argument vectors", "anchors": ["crates/seam/src/bin.rs: main, SUPPORTED_TARGETS"]}
{"id": "C43", "title": "Expanded nodes only refer to live source buffers", "statement": "If no file is included inside a user-macro, %for, %match or %namespace body, every node of the expanded tree and of the surviving definitions refers to a source text that is still owned by the expander; otherwise nodes may refer to freed source text (defect: use after free for the documented (%namespace ns (%include f)), witnessed).", "quantifier": "every program", "why_tests_cant": "memory safety over all programs", "anchors": ["crates/seam/src/parse/expander.rs: register_parser, create_subcontext, remove_subcontext, expand_for_macro, expand_namespace_macro"]}
{"id": "C44", "title": "Attribute values that expand to no or many nodes", "statement": "When an attribute's value expands to n>=1 nodes, the attribute keeps the first and the other n-1 nodes follow it as siblings; when it expands to none the expander panics (defect, witnessed).", "quantifier": "every attribute and value", "why_tests_cant": "all values", "anchors": ["crates/seam/src/parse/expander.rs: expand_node (Attribute case)"]}
{"id": "C45", "title": "Time-zone offsets", "statement": "A timezone of h hours (decimal, |h| < 24) is turned into the nearest whole number of seconds, exact when 3600*h is a whole number; offsets of a day or more are rejected; very large values overflow fixed-point arithmetic (panic in debug builds, witnessed).", "quantifier": "every decimal number of hours", "why_tests_cant": "arithmetic over the whole range", "anchors": ["crates/seam/src/parse/expander.rs: expand_date_macro, expand_timestamp_macro"]}
{"id": "C46", "title": "%glob ordering", "statement": "With a sort key, %glob returns the matched paths without duplicates, ordered by that key with ties broken by name, reversed for descending order; without a sort key the paths come in the reverse of the file system's order. In every case the listing is determined by the pairwise answers of the comparison, up to the standard library where these are no order.", "quantifier": "every set of matched paths and metadata", "why_tests_cant": "all result sets", "anchors": ["crates/seam/src/parse/expander.rs: expand_glob_macro, GlobPath"]}
{"id": "C47", "title": "Whitespace in trees is only whitespace", "statement": "Every leading-whitespace field of every node of a parsed tree consists of blanks (space, tab, CR, LF) only, and macro expansion preserves this; so whitespace can never inject markup.", "quantifier": "every source and program", "why_tests_cant": "an invariant over all expansions", "anchors": ["crates/seam/src/parse/lexer.rs: consume_whitespace", "crates/seam/src/parse/expander.rs: expand_nodes"]}
{"id": "C48", "title": "Strings stay valid UTF-8", "statement": "For every UTF-8 source, every text slice the lexer produces (token values, leading whitespace, error spans) is on character boundaries and valid UTF-8, so slicing never panics and the unchecked conversions are sound.", "quantifier": "every UTF-8 source", "why_tests_cant": "all multi-byte placements", "anchors": ["crates/seam/src/parse/lexer.rs: consume_whitespace, peek_char, consume_char", "crates/seam/src/parse/tokens.rs: Site::view, width, line_column"]}
{"id": "C49", "title": "Plain-text output is the source without its quotes", "statement": "For every source without comments and backslashes that parses, plain-text output equals the source up to double quotes and trailing whitespace; for every tree it equals the S-expression output in which strings and raw content are written as they are.", "quantifier": "every source and every tree", "why_tests_cant": "byte-exact equality for all sources", "anchors": ["crates/seam/src/assemble/text.rs: PlainTextFormatter::generate_node"]}
{"id": "C50", "title": "References to invocations stay valid", "statement": "Claim: while a macro invocation is expanded, the reference to its node obtained from register_invocation stays valid. False: expanding the arguments may push onto the same vector and reallocate it, after which the reference dangles and is read (defect, use after free; five nested calls suffice, witnessed). A reference survives n further registrations exactly if they fit into the buffer, which has the least size 4*2^k that suffices.", "quantifier": "every program", "why_tests_cant": "memory safety; invisible unless the allocator reuses the memory", "anchors": ["crates/seam/src/parse/expander.rs: register_invocation"]}
{"id": "C51", "title": "Which expansions panic", "statement": "Macro expansion panics only through: an attribute value that expands to nothing, YAML events that are not those of a document whose keys are all scalars and that has no aliases, an unsupported date format, overflow of a time-zone offset, an inconsistent comparison in %sort, and unreadable file metadata in %glob. Without those, expansion gives a tree or an error, or exceeds every budget.", "quantifier": "every program and environment", "why_tests_cant": "absence of panics over all programs", "anchors": ["crates/seam/src/parse/expander.rs: expand_node, expand_macro"]}
{"id": "C52", "title": "Errors point into a source that was read", "statement": "Whatever error expansion ends with, its position lies inside the main source or a file that was read, on character boundaries and with exact column, so that a source line can be shown; the same holds of all positions in the expanded tree and the definitions.", "quantifier": "every program, environment and error", "why_tests_cant": "an invariant over all expansions", "anchors": ["crates/seam/src/parse/expander.rs: ExpansionError", "crates/seam/src/parse/tokens.rs: Site"]}
{"id": "C53", "title": "Expanded text is valid UTF-8", "statement": "If all text from outside (sources, environment, dates, ...) is valid UTF-8, then so is every atom value and keyword of an expanded program and of its definitions.", "quantifier": "every program and environment", "why_tests_cant": "an invariant over all expansions", "anchors": ["crates/seam/src/parse/expander.rs: expand_nodes"]}
{"id": "C54", "title": "%markdown imports front matter and converts the text", "statement": "%markdown gives the HTML of its text as raw content and defines the parts of the front matter, YAML or TOML, as %yaml and %toml do; with :only content nothing is defined, with :only frontmatter there is no text; without front matter nothing is defined. Invalid front matter is an error only if it is asked for with :only frontmatter, otherwise it is silently ignored and what was read of it before the error stays defined (defect, witnessed).", "quantifier": "every document and environment", "why_tests_cant": "all documents and options", "anchors": ["crates/seam/src/parse/expander.rs: expand_markdown_macro"]}
{"id": "C55", "title": "Error reports show the line an error is on", "statement": "Printing any lexical, parse, expansion or generation error gives the complete source line that contains the error's position, then a line of marks that starts in the display column where the reported text starts and (if that text is on one line) covers exactly it, then path, line and column with the message. The headline names the stage that failed: lexer for defects of strings, parser for other syntax errors, expander for everything after a successful parse, generator with the target language for the formatters. Printing panics only if a width exceeds what the formatting machinery accepts, and some programs do cause that (defect, witnessed for every limit); for a text of several lines the marks run past the end of the line shown (defect, witnessed).", "quantifier": "every program, environment, error and terminal width function", "why_tests_cant": "all programs and all errors", "anchors": ["crates/seam/src/parse/tokens.rs: Site::line_slice, width, line_column, Display for Site", "crates/seam/src/parse/lexer.rs: Display for LexError", "crates/seam/src/parse/parser.rs: Display for ParseError", "crates/seam/src/parse/expander.rs: Display for ExpansionError", "crates/seam/src/assemble/mod.rs: Display for GenerationError"]}
{"id": "C56", "title": "The procedural macro arguments! generates what the schema says", "statement": "For every argument schema whose patterns are finite and in which no position occurs twice (position 0 excluded): the macro compiles it; the positions it computes at compile time are those the generated matcher accepts; the generated code accepts exactly the argument lists that obey the schema (declared types, mandatory positions filled, others only with rest) and unpacks them, reports an ordinary error for all others and never panics, whatever the order of the compile-time hash map. The schemas of the expander have the effect of the rule tables used in the model. With overlapping patterns the generated code can panic (witnessed). Token sequences that are not such schemas (unknown words or types, missing colons or commas, patterns without an upper or lower end) are rejected at compile time, except that a last item of which only the first word is given is ignored.", "quantifier": "every schema, argument list and order of the compile-time hash map", "why_tests_cant": "quantifies over all schemas and argument lists", "anchors": ["crates/seam_argparse_proc_macro/src/lib.rs: arguments, parse_finite_pattern, parse_argument_type", "crates/seam/src/parse/macros.rs: ArgParser::new"]}
{"id": "C57", "title": "Complaints about macro arguments name the first offender", "statement": "When the arguments of a builtin macro break its rules, the error is about the first argument (in order of writing) that breaks one, at the innermost node to blame: a keyword argument or positional argument without a rule, a node of the wrong kind, a list of the wrong length, a value outside those allowed; only if every argument obeys the rules is an argument reported missing, at the last argument if there are too few or at the call otherwise. There is exactly one such complaint for arguments that are not accepted and none for those that are, and it is the outcome of the call.", "quantifier": "every rule table, argument list and call", "why_tests_cant": "all argument lists and which of several errors is reported", "anchors": ["crates/seam/src/parse/macros.rs: ArgPredicate::check, ArgType::check, ArgParser::new, ArgParser::get"]}
{"id": "C58", "title": "Parameter mismatches are reported where they are", "statement": "If the arguments of a user macro do not match its parameters, the call fails with an error that names the first parameter at fault (missing argument, at the call or the inner list; wrong literal, missing list or wrong keyword, at the argument; second rest parameter, at that parameter), or else the last of too many arguments, or else a surplus keyword; the error is determined except for the choice among several surplus keywords. %define and %lambda with two rest parameters of one kind fail at the second one.", "quantifier": "every parameter list, argument list and hash order", "why_tests_cant": "all nested patterns", "anchors": ["crates/seam/src/parse/expander.rs: bind, bind_list, create_macro, expand_lambda_macro"]}
{"id": "C59", "title": "Effects and errors of %log, %os/env and %format", "statement": "%log adds exactly one line, its arguments separated by spaces, to the end of the log and expands to nothing; %os/env gives the value of the variable as a string; %format gives the text the format library makes of the template and the named and unnamed values. Wrong arguments, unset variables and bad templates are errors at the argument to blame or at the call.", "quantifier": "every call, state and environment", "why_tests_cant": "all calls and outcomes", "anchors": ["crates/seam/src/parse/expander.rs: expand_log_macro, expand_os_env_macro, expand_format_macro"]}
{"id": "C60", "title": "Texts are split at the leftmost separators", "statement": "Splitting at a non-empty separator (the path of %get) cuts at the leftmost occurrence and goes on after it, so the pieces do not contain the separator, there is always at least one, and joining them with the separator gives the text back; the empty separator gives the characters one by one, between two empty pieces.", "quantifier": "every text and separator", "why_tests_cant": "all texts, including overlapping occurrences and multi-byte characters", "anchors": ["crates/seam/src/parse/expander.rs: expand_get_macro"]}
{"id": "C61", "title": "Integers are read and printed in decimal", "statement": "A text counts as a list index (%get) exactly if it is an optional plus sign followed by decimal digits with a value below 2^64, and as an integer (the time of %date, keys of %sort) exactly if it is an optional sign followed by decimal digits with a value from -2^63 to 2^63-1; the value is that of the digits, and a printed integer is read back as itself.", "quantifier": "every text and integer", "why_tests_cant": "all texts and the exact bounds", "anchors": ["crates/seam/src/parse/expander.rs: expand_get_macro, expand_date_macro, expand_sort_macro"]}
{"id": "C62", "title": "Paths mean the sequence of their components", "statement": "A path consists of the names between its slashes, without empty ones and without single dots except a first one, after the root if it begins with a slash. The file name is the last component if that is a name, and the parent is the rest; the second name tried by %include has .sex added to the file name and the same parent; a relative path joined to a directory has the components of both; the extension is what follows the last dot of the file name unless that dot comes first; paths are ordered like words, component by component.", "quantifier": "every path", "why_tests_cant": "all spellings of paths", "anchors": ["crates/seam/src/parse/expander.rs: expand_include_macro, expand_embed_macro, add_includes, GlobPath"]}
{"id": "C63", "title": "Programs without recursion come to an end", "statement": "If names can be given levels such that every macro, and every included file, uses only names of lower level than its own, then expansion ends: with nodes free of macros, with an error or with a panic. This holds through %map, %filter, %apply and %sort with named macros or lambdas, %for, %match, %ifdef, %namespace and %include. A program that expands for ever has no such levels.", "quantifier": "every program without %symbol and every assignment of levels, every file system", "why_tests_cant": "termination is a statement about all budgets and all programs", "anchors": ["crates/seam/src/parse/expander.rs: expand_node, expand_invocation, expand_macro, expand_include_macro, expand_map_macro"]}
{"id": "C64", "title": "The lines written by %log can always be shown", "statement": "Every line that %log writes during a successful expansion is valid text and belongs to a position inside a source that was read (the program or an included file); printing it, with path, line and column, does not panic and gives exactly the line and display column of that position followed by the words logged.", "quantifier": "every program, environment, state reached and terminal width function", "why_tests_cant": "all programs and all invocations of %log, including those produced by macros and included files", "anchors": ["crates/seam/src/parse/expander.rs: expand_log_macro", "crates/seam/src/parse/tokens.rs: Site::line_column, Display for Site"]}
{"id": "C65", "title": "A syntax error names the first defect of the text and marks it", "statement": "The parser reports an error exactly if the text has a defect (a closing parenthesis that closes nothing, an opening one never closed, a string or triple-quoted string never closed, a string with an invalid escape, a keyword without value) and everything before it is well formed; the error names that defect, starts where it starts and covers exactly the parenthesis, opening quotes, string or keyword concerned. No text has two first defects, and every text is a program, has a first defect, or breaks off after a backslash.", "quantifier": "every source text and reading of escapes", "why_tests_cant": "all texts, all nestings, and which of several defects is reported", "anchors": ["crates/seam/src/parse/parser.rs: parse, parse_expr, parse_keyword, parse_atomic, parse_list", "crates/seam/src/parse/lexer.rs: consume, consume_string"]}
{"id": "C66", "title": "The CSS written for a tree is the one it stands for", "statement": "The CSS formatter writes exactly the sheet the tree stands for: at-rules on one line, at-rules with parameters and nested rules, ordinary rules with one line per property, each after its leading whitespace; values as functions (arguments separated by commas for rgba and hsla, by spaces otherwise, trimmed), as operations in parentheses, or as words, literals with whitespace (any Unicode White_Space character) quoted and escaped. Otherwise it stops at the first fault: an attribute inside a value, something that is not a rule after nested rules or at top level, something that is not a property, a rule without properties (blamed on its last selector), or with a panic at a rule without selector.", "quantifier": "every tree of well-formed text and every table of printable characters", "why_tests_cant": "all trees, all nestings, all texts, and which of several faults is reported", "anchors": ["crates/seam/src/assemble/css.rs: convert_value, css_value, generate_special_selector, generate_css_rule, generate, document"]}
{"id": "C67", "title": "The macro language has a big-step semantics", "statement": "There is a set of inference rules, with one or a few rules for each form of the language (atoms, variables, lists, attributes, every built-in macro with its errors, user macros with binding of parameters, included files), that speak of nothing but definitions, log and files; and the outcomes it allows for a program, a node or a call (output nodes, new definitions, log lines, errors with their place, panics, endless loops) are exactly those that expansion can have under some iteration order of its hash maps. A program to which the rules give no outcome runs forever, and one in which no order mattered has exactly one.", "quantifier": "every program, node, call, state, environment and hash-map order", "why_tests_cant": "both directions are about all programs and all derivations", "anchors": ["crates/seam/src/parse/expander.rs: expand_node, expand_nodes, expand_invocation, expand_macro and every expand_*_macro"]}
{"id": "C68", "title": "What is written for a tree in each language is what it stands for", "statement": "Plain text and S-expressions are the atoms, keywords and parentheses of the tree with their whitespace, strings bare or quoted. XML and HTML are exactly what the tree stands for: escaped atoms, raw text (HTML only), declarations, void elements, elements with their attributes (each after its own whitespace or one space), children and whitespace in front of the closing tag, which is in lower case in HTML; pre shows the source text, textarea and title plain text, style a sheet or one string, script S-expressions, math and svg XML. Otherwise the formatter stops at the first fault in order of writing, with the kind and position of it: empty list, head that is no symbol, list as attribute value, attribute among children, children of a void element, style with a string and more, raw text in XML, something else in a declaration. Errors are announced under the language that could not be written.", "quantifier": "every tree of valid text and, through the expander, every program", "why_tests_cant": "all trees and which of several faults is reported", "anchors": ["crates/seam/src/assemble/xml.rs: generate_xml_node", "crates/seam/src/assemble/html.rs: generate_html_node, raw_text", "crates/seam/src/assemble/text.rs: generate_node", "crates/seam/src/assemble/sexp.rs: generate_node", "crates/seam/src/assemble/mod.rs: GenerationError"]}
{"id": "C69", "title": "Every part of a tree has the position of the token it comes from", "statement": "Reading a UTF-8 source gives exactly what an attributed grammar says of it: the tree in which every symbol, number and string has the line, byte offset, column, length and whitespace of its token, every attribute those of its keyword, every list those of its opening parenthesis and, separately, those of its closing one; or else the first fault (unexpected or missing parenthesis, unclosed string, bad escape, keyword without value) with the mark of the token to blame, the innermost of several open lists; or nothing at all if the source breaks off after a lone backslash. Lines count a newline inside a token twice, and from the token's end unless it is a string.", "quantifier": "every UTF-8 source and source number", "why_tests_cant": "all sources, with all positions in them at once", "anchors": ["crates/seam/src/parse/parser.rs: Parser::parse_expr, parse_keyword, parse_atomic, parse_list", "crates/seam/src/parse/lexer.rs: Lexer::consume", "crates/seam/src/parse/tokens.rs: Site"]}
{"id": "C70", "title": "What the program prints for its arguments follows from rules alone", "statement": "Called with any arguments in a world whose texts are UTF-8, the program prints a text and ends in a way (exit code, panic, endless loop) exactly if a set of rules allows it: the rules for single arguments, the documented search path, the attributed grammar of sources, the rules of the macro language and the written forms of each target, with the wrapper of HTML pages and the XML declaration. The rules mention no budget and no order of hash maps; they give no outcome exactly if the program never ends under any order, and one at most if each source has one meaning at most.", "quantifier": "all worlds of UTF-8 texts, all argument lists, all outcomes", "why_tests_cant": "every source, file system, option list and hash-map order at once; also non-termination", "anchors": ["crates/seam/src/bin.rs: main, generate_and_print, argument_fatal", "crates/seam/src/lib.rs: tree_builder, tree_builder_file, tree_builder_stream", "crates/seam/src/assemble/html.rs: HTMLFormatter::document", "crates/seam/src/assemble/xml.rs: XMLFormatter::document"]}
{"id": "C71", "title": "Comments and line numbers do not change what a program does", "statement": "Two UTF-8 sources with the same tokens and the same whitespace reported in front of each - they may differ in comments, in the number of lines, and in single against triple quotes - are read as trees that differ in positions only, or rejected with the same error at corresponding tokens. Trees that differ in positions only expand to such trees, with corresponding definitions and log, or fail with the same error at corresponding positions, provided no %lambda of the main source is made (its name is made of its position); every target then makes the same document, except that HTML copies the content of pre elements from the source.", "quantifier": "all pairs of sources, all environments with UTF-8 files, all budgets, all targets", "why_tests_cant": "every pair of sources and every position at once", "anchors": ["crates/seam/src/parse/lexer.rs: consume, consume_whitespace", "crates/seam/src/parse/parser.rs: parse", "crates/seam/src/parse/expander.rs: ExpanderInternal, expand_lambda_macro", "crates/seam/src/assemble"]}
{"id": "C72", "title": "Expansion leaves nothing to expand", "statement": "If neither a program nor any file it could include mentions the macro %symbol, and the TOML library's dates begin with a digit, then the output of a successful expansion contains no symbol beginning with a percent sign: no call, no variable. So expanding the output again, in any state, changes nothing and has no effects; and the output written as S-expressions, raw text included, is a program whose own output is the same text (where C09 lets S-expressions be read back). With %symbol this is false: it makes a variable out of text.", "quantifier": "all programs, environments, budgets and orders of hash maps", "why_tests_cant": "the set of programs is unbounded, and each macro could leak unexpanded arguments", "anchors": ["crates/seam/src/parse/expander.rs: expand_node, expand_nodes, expand_invocation, all macros", "crates/seam/src/assemble/sexp.rs"]}
{"id": "C73", "title": "Names that are not text are listed legibly", "statement": "%glob sorts paths, and tells them apart, by their bytes, but its strings are always valid UTF-8: each maximal piece of a path that is no text (the longest beginning of a character, or else one byte) is shown as U+FFFD and all else unchanged. So a path is shown as it is exactly if it is valid UTF-8, text in front of the first bad byte is kept, and so are all ASCII characters, separators among them.", "quantifier": "all byte strings as paths, all listings and options", "why_tests_cant": "paths are arbitrary bytes, and two different ones may look alike", "anchors": ["crates/seam/src/parse/expander.rs: expand_glob_macro (1285-1290), GlobPath"]}
{"id": "C74", "title": "What a program does not mention it cannot use", "statement": "If neither a program nor any file it could include mentions some built-in macros, %symbol (by which it could make up their names) among them, then worlds that differ only in what these macros look at allow the program the same outcomes: without %include and %embed the files do not matter, without %os/env the environment variables, without %date and %timestamp the clock and the time zone, and likewise for %glob, %sort, %lambda, %format, %markdown and imported data. Without %log nothing is logged, without %include no other source is read, and the output does not mention the macros either. With %symbol this is false.", "quantifier": "all programs, all pairs of environments, all sets of macros", "why_tests_cant": "that something is never looked at, in any program and any world", "anchors": ["crates/seam/src/parse/expander.rs: expand_invocation, expand_node, all macros", "crates/seam/src/parse/expander.rs: expand_include_macro, expand_embed_macro, expand_os_env_macro, expand_date_macro"]}
{"id": "C75", "title": "A definition that nothing mentions makes no difference", "statement": "Take out of a program a definition of a macro, or of a variable for a text or a number, whose name is mentioned nowhere: neither the program nor any file it could include uses it or asks for it with %ifdef, nor can they get at it in a roundabout way (%symbol, %ifdef handed to another macro, or %namespace, which copies all definitions under other names). Then the outcomes are the same: the same nodes, log lines, files and errors, up to the definition itself; and the other way around. This holds for any set of names; if the set has with each name all names that end in it, %namespace does no harm. With any one of the roundabout ways it is false.", "quantifier": "all programs, all places of the definition in them, all environments, all runs", "why_tests_cant": "absence of any influence, over all programs and all worlds", "anchors": ["crates/seam/src/parse/expander.rs: expand_define_macro, insert_variable, get_variable", "crates/seam/src/parse/expander.rs: expand_invocation, expand_ifdef_macro, expand_namespace_macro, expand_symbol_macro, expand_apply_macro"]}
{"id": "C76", "title": "Definitions can be moved", "statement": "Definitions of different names that stand next to each other (of macros, or of variables for a text or a number) can be written in any order: every outcome is the same, whatever is in them and around them. And a definition can be moved, later or earlier, past nodes that do not mention its name, that do not get at it in a roundabout way (C75) and that import no data, which could define the same name; what comes after is arbitrary, and may use the definition. Every outcome is then exactly the same, nodes, definitions, log and files. As programs, the two differ in the positions of nodes: if no lambda is made in the main source, their outcomes are the same but for positions. Moved past an import of data or a %namespace, a definition can make a difference, though neither mentions it.", "quantifier": "all programs, all places, all permutations, all environments, all runs", "why_tests_cant": "equality of all outcomes of two programs, for all programs and all worlds", "anchors": ["crates/seam/src/parse/expander.rs: expand_define_macro, insert_variable, get_variable", "crates/seam/src/parse/expander.rs: expand_nodes, expand_invocation, expand_namespace_macro, expand_toml_macro"]}
{"id": "C77", "title": "The output can be exponentially larger than the program", "statement": "In every environment the program of 15 + 17 n bytes that defines a variable, redefines it n times as twice itself and then uses it is expanded to 2^n words, and the text written for it has 2^(n+1) - 1 bytes; a budget of 4 nested steps suffices, so no limit on the depth of recursion prevents it. Hence the claim that the number of nodes put out is bounded by some polynomial in the length of the program is false (defect: a short source exhausts memory, and nothing in the expander limits it).", "quantifier": "all sizes n, all environments, all polynomials", "why_tests_cant": "no test can run the programs concerned, and the claim refuted is about all polynomials", "anchors": ["crates/seam/src/parse/expander.rs: expand_define_macro, expand_node, expand_nodes"]}
{"id": "C78", "title": "Programs can compute everything, so whether an expansion ends cannot be decided", "statement": "For every machine with two counters (instructions: add one to a counter; or subtract one, unless it is zero, and go on in one place or the other) there is a program, one macro of the two counters for each instruction, that simulates it, in every environment: if the machine stops, the program is expanded to the final values of the counters (a number written as that many nested lists); if it does not, then no budget of nested steps is enough. There is never an error or a panic. Each step of the machine takes at least two further nested calls: a loop written as a macro that calls itself last still uses up the stack. Only %define, %list and %match are used, no conditional. So a procedure that tells for every source whether its expansion ends would tell for every such machine whether it stops, which no procedure can (Minsky 1967; that theorem itself is not proved here).", "quantifier": "all machines, all initial values, all environments, all budgets", "why_tests_cant": "an equivalence between unbounded computations, for all machines; those that do not stop cannot be run at all", "anchors": ["crates/seam/src/parse/expander.rs: expand_define_macro, expand_list_macro, expand_match_macro, bind, bind_list", "crates/seam/src/parse/expander.rs: expand_node, expand_macro, expand_invocation"]}
{"id": "C79", "title": "How deep the recursion goes", "statement": "Expanding nodes in which there are no macros takes exactly as many nested calls of expand_node as they are deeply nested: with fewer there is no outcome, with that many the nodes themselves. The use of a variable takes one call more than its value is deep, since the value is expanded again at every use. A source of 2 n brackets takes n nested calls, so no depth is enough for every source, and nothing in the program limits the depth (defect: a source of brackets alone overflows the stack).", "quantifier": "all trees without macros, all states, all environments, all budgets", "why_tests_cant": "an exact bound for all trees and all budgets, which no number of runs establishes", "anchors": ["crates/seam/src/parse/expander.rs: expand_node, expand_nodes, expand"]}
{"id": "C80", "title": "A sequence of nodes is expanded part by part", "statement": "However a sequence of nodes is divided in two, its outcome is that of the second part in the state which the first part leaves behind, preceded by the nodes of the first; or the first part fails (error, panic, endless loop in a library) and the whole has that outcome. So the error reported is the first, nothing that follows a part without outcome gives it one, the expansion of a first part is an initial part of the expansion of the whole, parts with the same outcomes may replace each other, and what follows a part that always fails is never reached.", "quantifier": "all sequences, all divisions of them, all states, all environments, all outcomes", "why_tests_cant": "an equivalence for all divisions and all outcomes, including programs that never end", "anchors": ["crates/seam/src/parse/expander.rs: expand_nodes, expand_node"]}
{"id": "C81", "title": "Sources can be put one after the other", "statement": "If a source is well formed, then followed by a line feed and any other text it is read as the two would be by themselves: to the trees of the first followed by those of the second, the latter further on by the bytes in front of them and by a number of lines that depends on the first alone, in the same columns, and with other whitespace before the first of them; or with the syntax error of the second, moved by the bytes in front of it and marking as many bytes; or the parser hangs as it does on the second. So any number of well-formed sources on lines of their own make one well-formed source. What follows does not change what the first source does when it is expanded: an error of it stays the same at the same position, and its nodes come first (for sources that make no lambda). A space or nothing instead of the line feed does not do, since the first source may end in a comment or in a symbol.", "quantifier": "all pairs and all lists of source texts in UTF-8, all unescape functions", "why_tests_cant": "the claim is about all pairs of texts, including those with errors and those on which the lexer does not end", "anchors": ["crates/seam/src/parse/lexer.rs: consume_whitespace, consume_identifier_string, consume_string, consume", "crates/seam/src/parse/parser.rs: parse"]}
