{"id": "C01", "title": "Position to line/column is exact and invertible", "statement": "For every source text and every position up to and including its last newline, converting the position to (line, column) yields the unique pair such that exactly line-1 newlines lie strictly before the position and column-1 characters separate the position from the start of its line; converting that pair back with the HTML-parser position conversion returns the same position, and two different positions never get the same pair. Positions after the last newline (or any position of a text with no newline) make the conversion fail with an assertion instead of returning a wrong answer.", "quantifier": "all texts, all positions (in range, at newlines, after the last newline, out of range)", "why_tests_cant": "The conversion is a bisection over a table whose size depends on the text; unit tests sample a few positions of a few texts, whereas every diagnostic of the tool relies on it for all of them.", "anchors": ["shared.py: install_spec_text, convert_posn_to_linecol, convert_HTMLParser_getpos_to_posn"]}
{"id": "C02", "title": "Replacement writing is exact splice, or refuses", "statement": "Writing the spec with a set of non-overlapping, forward replacements produces exactly the original text with each replaced span substituted and everything outside the spans copied verbatim once and in order, whatever order the replacements are given in; if two spans overlap the call fails with an assertion. A backward span (end before start) is not detected and makes text appear twice.", "quantifier": "all texts and all finite lists of (start, end, string) triples in any order", "why_tests_cant": "Needs every interleaving of span boundaries (adjacent, empty, touching ends, permuted input).", "anchors": ["shared.py: write_spec_with_replacements"]}
{"id": "C03", "title": "The annotated copy of the spec loses neither text nor messages", "statement": "After any history of position-tagged messages, the annotated copy contains every line of the spec verbatim and in order, and each message recorded appears exactly once, directly below the line containing its position, under a caret in its column, with the messages of a line ordered by column; deleting the message lines gives back the text.", "quantifier": "all texts and all sequences of msg_at_posn calls at convertible positions", "why_tests_cant": "Ranges over call histories and texts; tests only see particular runs.", "anchors": ["shared.py: msg_at_posn_start, msg_at_posn, msg_at_posn_finish, msg_at_node"]}
{"id": "C04", "title": "Entity decoding is simultaneous", "statement": "Decoding entities by successive replacement gives, for every text without '<', exactly the result of a single left-to-right scan in which each recognised entity is decoded once: decoding never decodes the output of another decoding (in particular &amp;lt; becomes &lt;).", "quantifier": "all texts not containing '<'", "why_tests_cant": "Sequential replacements can interact on adversarial adjacent entities; needs all strings.", "anchors": ["shared.py: decode_entities"]}
{"id": "C05", "title": "Function registry: no overwrites, exact access counts", "statement": "Over any history of registrations, look-ups and membership tests, a key always denotes the first function registered under it, re-registration fails without changing anything, look-up of an unregistered key fails without changing anything, and the access count reported for a key is exactly the number of successful look-ups of that key since it was registered.", "quantifier": "all finite operation histories over any keys and functions", "why_tests_cant": "The claim is about every history of calls.", "anchors": ["DecoratedFuncDict.py: DecoratedFuncDict.put, __setitem__, __contains__, __getitem__, access_counts"]}
{"id": "C06", "title": "The token scanner implements unique longest match", "statement": "Whenever tokenizing a line succeeds, the matched lexemes concatenate to the line, each lexeme is the strictly longest match among all patterns at its offset, and the tokens returned are the responses for the non-skipped lexemes in order; it raises a tokenization error exactly when some reached offset has no match or a tie for longest. A pattern that can match the empty string can make the scan loop forever; if all matches are non-empty it always terminates.", "quantifier": "all token specifications (patterns abstracted to match-length functions) and all lines", "why_tests_cant": "Quantifies over all specifications and all lines, and includes non-termination.", "anchors": ["Tokenizer.py: Tokenizer.tokenize, TokenSpec"]}
{"id": "C07", "title": "Section scanning covers all nodes by first matching pattern or reports", "statement": "When scanning a section's children succeeds, the children are partitioned, in order, into consecutive runs, each matched by the first unit of the grammar that matches there, and the results are the concatenation of the processors' results in that order; otherwise exactly one message is emitted, at the first node where no unit matches, and the result is empty even though processors of earlier runs have already been invoked. Termination holds whenever no pattern is empty.", "quantifier": "all node grammars, all child sequences, all processors", "why_tests_cant": "Quantifies over all grammars and node sequences.", "anchors": ["NodeGrammar.py: NodeGrammar.scan_section, node_matches_atom"]}
{"id": "C08", "title": "Records of different declared types never compare equal", "statement": "Two tuples created by tuple types with different names are never equal and comparing them for order is decided by the type name alone, without inspecting field values; two tuples of the same type are equal exactly when all fields are equal; each named accessor returns the argument it was constructed with, and items() lists the type name followed by each field with its value in declaration order.", "quantifier": "all type names, field lists and field values", "why_tests_cant": "All values of all types, including ones with incomparable fields.", "anchors": ["mynamedtuple.py: mynamedtuple"]}
{"id": "C09", "title": "Clusters are exactly the strongly connected components", "statement": "For every dependency graph, the clusters computed partition the vertex set, and two vertices share a cluster if and only if each is reachable from the other; no assertion of the search can fail.", "quantifier": "all finite directed graphs and all iteration orders of vertex and successor sets", "why_tests_cant": "Iteration order of Python sets is unspecified, so correctness must hold for every order, and for graphs of every size.", "anchors": ["Graph.py: Graph.find_strongly_connected_components"]}
{"id": "C10", "title": "Clusters come out prerequisites-first", "statement": "For every graph, whenever a vertex of one cluster has an arc to a vertex of another cluster, that other cluster was created strictly earlier.", "quantifier": "all finite directed graphs and iteration orders", "why_tests_cant": "Same as C09; callers process clusters in this order.", "anchors": ["Graph.py: Graph.find_strongly_connected_components, Graph.compute_dependency_levels"]}
{"id": "C11", "title": "Dependency levels are longest-path levels and computing them cannot crash", "statement": "For every graph, on a fresh process, the level computation never hits its missing return value, never fails its density assertion, and puts each cluster at level 0 if it has no prerequisite cluster and otherwise at one plus the maximum level of its prerequisites; every cluster appears in exactly one level. (The level function returns nothing on its non-memoised path, so on cluster lists not in prerequisites-first order it raises TypeError.)", "quantifier": "all finite directed graphs; for the crash half, all cluster lists", "why_tests_cant": "The latent crash is masked only by an ordering invariant of another function.", "anchors": ["Graph.py: establish_dependency_levels, get_level_of_cluster, Graph.compute_dependency_levels"]}
{"id": "C12", "title": "Cycle flags and prerequisite lists of clusters are exact", "statement": "A cluster is flagged as containing a cycle exactly when some vertex of it lies on a directed cycle; its prerequisite list contains, without repetition, exactly the other clusters reachable by one arc; the assertion that multi-member clusters contain a cycle never fails.", "quantifier": "all finite directed graphs", "why_tests_cant": "All graphs and orders.", "anchors": ["Graph.py: Graph.compute_dependency_levels"]}
{"id": "C13", "title": "Levels are not reusable across graphs", "statement": "The cluster list is module-global and never reset, so after a first graph has been analysed, analysing a second graph in the same process mixes in the first graph's clusters.", "quantifier": "all histories of two analyses (existential: a concrete history violating isolation)", "why_tests_cant": "History-dependent.", "anchors": ["Graph.py: cluster_, Cluster, Graph.compute_dependency_levels"]}
{"id": "C14", "title": "Subset construction yields a deterministic, densely numbered automaton", "statement": "For every item system from which finitely many items are reachable, construction terminates with states numbered 0..n-1 in order of creation, distinct states having distinct kernels, at most one transition per symbol per state, and every transition leading to a state of the automaton.", "quantifier": "all transition systems on items with finitely many reachable items", "why_tests_cant": "All automata, including ones with epsilon cycles.", "anchors": ["DFA.py: Automaton.__init__, Automaton._ensure_state_for_kernel, State._close"]}
{"id": "C15", "title": "State closure is exactly epsilon-reachability", "statement": "After construction, the items of each state are exactly the items reachable from its kernel by epsilon transitions, each listed once, and its final items are exactly those among them with no outgoing transition.", "quantifier": "all item systems, all states", "why_tests_cant": "Fixpoint over arbitrary graphs.", "anchors": ["DFA.py: State._close, State._include_item"]}
{"id": "C16", "title": "The automaton follows exactly the item paths", "statement": "For every symbol string, the automaton has a run on it from the start state if and only if some item path from the initial item spells that string (skipping epsilons), and the state reached contains exactly the items reachable by such paths.", "quantifier": "all item systems and all symbol strings", "why_tests_cant": "All strings of all lengths.", "anchors": ["DFA.py: Automaton.__init__, State._close"]}
{"id": "C17", "title": "Example accessors are shortest access strings", "statement": "The example accessor recorded for each state leads the automaton from the start state to that state, no shorter string does, and therefore the internal assertion comparing accessor lengths never fails.", "quantifier": "all item systems", "why_tests_cant": "Breadth-first invariant over arbitrary automata.", "anchors": ["DFA.py: Automaton._ensure_state_for_kernel"]}
{"id": "C18", "title": "Indentation tokens are balanced", "statement": "For every successfully tokenized algorithm text, the INDENT and OUTDENT tokens it yields form a balanced sequence in which the current depth equals the step's indentation in units of two spaces relative to the start.", "quantifier": "all source texts for which the tokenizer reports no error", "why_tests_cant": "All nesting patterns of any depth.", "anchors": ["Pseudocode_Parser.py: Tokenizer.tokenize"]}
{"id": "C19", "title": "The document tree tiles the source text", "statement": "The HTML parser accepts exactly the well-nested documents (an end tag that fits no open element is reported and skipped). Whenever it accepts one without stray end tags, the children of every element tile the element's inner extent without gaps or overlaps, in source order, the root covers the whole text, and so concatenating the leaves' source text (with tags) gives back the document. It stops on every text.", "quantifier": "all accepted documents", "why_tests_cant": "All documents; every later analysis addresses text by these extents.", "anchors": ["HTML.py: parse, _parse, add_child, close_open_child"]}
{"id": "C20", "title": "Innermost-node lookup finds the leaf, except at tags", "statement": "On a document tree whose nodes tile their parents, looking up the deepest node covering a position returns a childless node whose extent includes the position; a position inside a leaf or at its right edge gives that leaf (so at a boundary between leaves the earlier one). The lookup fails its assertion at positions within the tags of an element with children and right after its end tag - even though a following leaf may start there - and at no other positions except possibly right before such an element's start tag.", "quantifier": "all tiled trees and all positions in the document", "why_tests_cant": "All trees and boundary positions.", "anchors": ["Pseudocode.py: find_deepest_node_covering_posn"]}
{"id": "C21", "title": "Type splitting partitions", "statement": "Splitting a hierarchy type or union of hierarchy types by another never raises and yields two parts such that a value belongs to the first part exactly if it belongs to both types and to the second exactly if it belongs to the former but not the latter; so the parts are disjoint and together have all values. For list types the parts can overlap.", "quantifier": "all hierarchy types and unions over any type hierarchy that TNode calls can build in which List is a leaf (existential witness for the list types)", "why_tests_cant": "All pairs of types; control-flow narrowing of the whole analysis depends on it.", "anchors": ["static_types.py: Type.split_by"]}
{"id": "C22", "title": "Subtype test agrees with value inclusion on the hierarchy", "statement": "On hierarchy types and unions of them, the subtype test never raises, is reflexive and transitive, and answers yes whenever the values of the first are values of the second and the second is reduced. Whenever it answers yes on any types, list and record types included but not procedure types, every value of the first type is a value of the second. The unknown type is not a subtype of itself.", "quantifier": "all types over any type hierarchy and record schemas", "why_tests_cant": "All pairs/triples of types.", "anchors": ["static_types.py: Type.is_a_subtype_of_or_equal_to, member_is_a_subtype_or_equal"]}
{"id": "C23", "title": "Union of types is an upper bound that adds nothing", "statement": "The union of any list of hierarchy types and unions contains exactly the values of its members and does not depend on order or repetition of the list; with no List among them it has no member that is a subtype of another, and unions of the same values have the same members. With list and record types among them it still has every value of every type, provided bare List and the unknown type occur nowhere in them, and at most one list type. List stays beside its supertypes, and a union of List with a particular list type loses values.", "quantifier": "all finite lists of types", "why_tests_cant": "All lists and permutations.", "anchors": ["static_types.py: union_of_types, _union_of_hier_memtypes"]}
{"id": "C24", "title": "Procedure subtyping ignores parameter contravariance", "statement": "The subtype test on procedure types accepts two procedure types with equal arity whose return types are related even if the parameter types are unrelated, because the parameter check is a never-evaluated generator; so the test is unsound for procedure parameters.", "quantifier": "all procedure types (existential witness for the violation; universal characterisation of what is accepted)", "why_tests_cant": "A test on well-related types passes; only the general characterisation reveals that parameters never matter.", "anchors": ["static_types.py: member_is_a_subtype_or_equal"]}
{"id": "C25", "title": "Joining environments over-approximates every branch", "statement": "If a store conforms to any one of the environments being joined, it conforms to the joined environment, where an absent variable counts as 'not set'; each variable's type in the joined environment has exactly the values it has in some branch; unreachable branches contribute nothing; environments of different algorithms are refused. This is for hierarchy types and unions of them: a branch in which a variable's type is unknown is ignored in favour of the others, so the join does not cover it.", "quantifier": "all environments, all stores, all numbers of branches", "why_tests_cant": "All combinations of branches and variables.", "anchors": ["pseudocode_semantics.py: envs_or, Env"]}
{"id": "C26", "title": "Type tests narrow soundly in both outcomes", "statement": "After a type test on an expression, a store in which the test is true conforms to the true-outcome environment and one in which it is false conforms to the false-outcome environment, provided the store conformed before and the tested type bracket is respected; a negated copula swaps the two. The new types are as narrow as the bracket allows, a test is reported as unnecessary exactly if its outcome is determined, and an asserted test, positive or negated, reports an error exactly if the types do not confirm it (a negated one raises if the types contradict it).", "quantifier": "all environments, expressions, type brackets and stores", "why_tests_cant": "All types and stores.", "anchors": ["pseudocode_semantics.py: Env.with_type_test"]}
{"id": "C27", "title": "Grammar-parameter settings are enumerated completely and once", "statement": "Enumerating the settings of a production's parameters yields every assignment of + or ~ to the parameters exactly once, and fails by assertion for more than four parameters.", "quantifier": "all parameter lists", "why_tests_cant": "All lists; each expanded grammar depends on it.", "anchors": ["es_parser.py: each_params_setting, each_boolean_vector_of_length"]}
{"id": "C28", "title": "The parser is sound: every tree it returns is a derivation of the consumed input", "statement": "Every parse tree returned for a goal symbol is a derivation tree of the grammar rooted at that symbol whose leaves are exactly the consumed terminals in order, with each lookahead restriction satisfied at its position.", "quantifier": "all grammars, all inputs", "why_tests_cant": "All grammars and inputs of any length.", "anchors": ["es_parser.py: _Earley.run"]}
{"id": "C29", "title": "The parser is complete on acyclic grammars", "statement": "If the input (for a lexical goal: some prefix of it) has a derivation from the goal, parsing does not report a syntax error; on text with a grammar in which no symbol derives itself, parsing always ends, with a tree exactly if there is a derivation. When some prefix has infinitely many derivations (a symbol derives itself), parsing never ends.", "quantifier": "all grammars (termination: those without unit cycles), all inputs, all token sources whose answers do not depend on what was asked before", "why_tests_cant": "All grammars and inputs.", "anchors": ["es_parser.py: _Earley.run"]}
{"id": "C30", "title": "Lexical goals take the longest match", "statement": "For a lexical goal the parser consumes the longest prefix of the remaining input that has a derivation.", "quantifier": "all lexical grammars, all inputs", "why_tests_cant": "Maximal munch must hold for every input.", "anchors": ["es_parser.py: _Earley.run, LexicalTIP"]}
{"id": "C31", "title": "Optional-symbol bit strings are enumerated exactly", "statement": "The bit strings covered by a list of omitted/required/either markers are exactly those that have 0 at omitted, 1 at required and anything at either positions, each listed once.", "quantifier": "all marker lists", "why_tests_cant": "All lengths and patterns; rule lookup keys rely on it.", "anchors": ["emu_grammars.py: check_non_defining_prodns (each_optbits_covered_by)"]}
{"id": "C32", "title": "Matching a used right-hand side against a defining one is sound but incomplete", "statement": "If a used right-hand side is reported to match a defining one, it is obtained from it by dropping only droppable items (parameters, labels, constraints, optional symbols) and keeping the rest in order; the converse fails: the greedy matcher rejects 'X' against 'X? X'.", "quantifier": "all item sequences", "why_tests_cant": "All sequences; the counterexample depends on greedy commitment.", "anchors": ["emu_grammars.py: u_rhs_matches_d_rhs_, u_item_matches_d_item, d_item_doesnt_require_a_matching_u_item"]}
{"id": "C33", "title": "Grammar reachability is exact", "statement": "The set of nonterminals found reachable from the goal symbols is exactly the set reachable through the production rules.", "quantifier": "all grammars", "why_tests_cant": "Fixpoint over arbitrary graphs.", "anchors": ["emu_grammars.py: check_reachability"]}
{"id": "C34", "title": "Variable scoping in executed pseudocode is lexical by contour", "statement": "Over any well-bracketed history of contour starts/ends, variable introductions and assignments within a frame, a reference yields the latest value given to the variable in the innermost open contour that introduced it; a variable introduced in a contour is gone after it ends; introducing an already visible name and assigning an invisible one both fail.", "quantifier": "all operation histories within a frame", "why_tests_cant": "All histories.", "anchors": ["pseudocode_semantics.py: Frame.start_contour, end_contour, let_var_be_value, set_settable_to_value, get_value_referenced_by_var"]}
{"id": "C35", "title": "A return stops execution", "statement": "In executed pseudocode, after a Return step nothing later in the algorithm is executed: no later step in the same block, no later iteration of an enclosing loop and no later step of enclosing blocks; the algorithm's result is that value; the contours opened by the enclosing loops are closed; and an algorithm that ends without a Return fails by assertion.", "quantifier": "all step trees and all stores", "why_tests_cant": "All nestings of blocks, conditionals and loops.", "anchors": ["pseudocode_semantics.py: Frame.run, execute commands, For-each execution, If execution"]}
{"id": "C36", "title": "The execution stack is balanced except through expression-bodied algorithms", "statement": "After a call of an algorithm that gives a value, the frame stack is as before the call, and in any case what was on it before is still there unchanged. A missing-reference exception gets out of a call only from an expression-bodied algorithm, which leaves its frame on the stack; a caller that handles the exception then fails when it pops its own frame, and an algorithm with steps other than Contains and BoundNames fails with a KeyError.", "quantifier": "all call trees", "why_tests_cant": "Exceptions at every possible depth.", "anchors": ["pseudocode_semantics.py: execute_alg_defn, Frame.run"]}
{"id": "C37", "title": "Section numbers are unique", "statement": "In a document with at most one introduction, no two sections get the same number, a section's number is its parent's number followed by its 1-based rank, and the numbering succeeds exactly if every top section is an introduction, clause or annex, there are at most 26 annexes, and every section has an id.", "quantifier": "all section trees", "why_tests_cant": "All tree shapes.", "anchors": ["Section.py: _set_section_identification_r"]}
{"id": "C38", "title": "Intrinsic creation order puts every prototype first", "statement": "When creation ranks can be computed, every intrinsic appears in the creation order exactly once and strictly after its prototype.", "quantifier": "all prototype maps", "why_tests_cant": "All maps; cyclic maps never terminate.", "anchors": ["intrinsics.py: S_Intrinsic.get_creation_rank, determine_creation_order"]}
{"id": "C39", "title": "Merging property facts detects exactly the conflicts", "statement": "Merging two attribute maps fails exactly if they disagree on a shared attribute and otherwise yields their union. (Attributes of a data property and of an accessor property can be merged, and the result has no kind.)", "quantifier": "all attribute maps and all orders of facts", "why_tests_cant": "All permutations of fact lists.", "anchors": ["intrinsics.py: merge_propAttrs, S_Intrinsic.ensure_property"]}
{"id": "C40", "title": "Strictness is inherited and exact", "statement": "Whenever is_strict gives an answer for a parse node, the answer is yes exactly if the node or one of its ancestors (through covered nodes too) is inherently strict or begins with a directive prologue that contains a Use Strict Directive; so every descendant of a strict node is strict. An answer is always given outside of async functions, methods, generators and arrow functions with braces; within those the code fails by assertion, although the node would have an answer.", "quantifier": "all parse trees", "why_tests_cant": "All trees and depths.", "anchors": ["pseudocode_semantics.py: is_strict, node_is_strict helpers, begins_with_a_DP_that_contains_a_USD"]}
{"id": "C41", "title": "The conjunction of environments is sound and exact on common expressions", "statement": "A store that conforms to all of the given environments conforms to their conjunction; the conjunction has exactly the expressions that all of them have, each with exactly the values that all of them allow, an unknown type allowing everything.", "quantifier": "all non-empty lists of environments over hierarchy types, unions and the unknown type; all stores", "why_tests_cant": "All combinations of types and environments.", "anchors": ["pseudocode_semantics.py: envs_and, env_and"]}
{"id": "C42", "title": "Arguments of a nonterminal are passed on with the right signs", "statement": "Expanding a nonterminal under a parameter setting passes [+x] and [~x] on as written and [?x] with the sign x has in the setting; it fails, by assertion, exactly if some [?x] names a parameter that the production does not have.", "quantifier": "all argument lists and settings", "why_tests_cant": "All combinations of arguments and settings.", "anchors": ["es_parser.py: expand_nt_wrt_params_setting"]}
{"id": "C43", "title": "Facts about intrinsics are coalesced without loss and independently of their order, [[ccb]] aside", "statement": "Coalescing fails exactly if two facts about the same intrinsic conflict, and otherwise records for each subject exactly the kind, slots and attributes that the facts state, whatever their order; the exception is the slot [[ccb]], for which two different sections are accepted silently and the one mentioned first is kept.", "quantifier": "all lists of facts and all their permutations", "why_tests_cant": "All permutations of arbitrarily long fact lists.", "anchors": ["intrinsics.py: coalesce_intrinsic_facts, ensure_intrinsic_named, S_Intrinsic.ensure_property, merge_propAttrs"]}
{"id": "C44", "title": "Each child of a section ends up in exactly one part, in document order", "statement": "Making the section tree puts every child of a section that is not blank or a comment in exactly one of heading, blocks, numberless parts and subsections, in document order; it succeeds exactly if in every section the first block before any h2 is an h1.", "quantifier": "all document trees", "why_tests_cant": "All child sequences and depths.", "anchors": ["Section.py: _make_section_tree_r"]}
{"id": "C45", "title": "Defaults for intrinsics never override explicit facts and complete them", "statement": "Applying defaults keeps every explicit slot, kind and attribute; afterwards [[Prototype]] and [[Extensible]] are set, functions have complete length and name properties, data properties have [[Writable]], [[Enumerable]] and [[Configurable]], accessor properties [[Enumerable]] and [[Configurable]]; whatever was not explicit gets exactly the default value for the kind of intrinsic and property. (An explicit accessor property length of a function gets data attributes too and has no kind.)", "quantifier": "all intrinsics with any explicit facts", "why_tests_cant": "All combinations of explicit facts.", "anchors": ["intrinsics.py: S_Intrinsic.apply_defaults, apply_defaults_for_property"]}
{"id": "C46", "title": "Early error rules share a frame: completed ones leave it as it was, abandoned ones do not", "statement": "A rule that is completed and contains no algorithm leaves the frame (all variables and contours) as it was, so that the rules after it find what they would find by themselves. This fails for a rule abandoned inside a contour because of a reference to a missing thing (the contour stays open), and for variables introduced in a rule's own algorithm: a later rule that uses the same variable fails by assertion though by itself it would find its error.", "quantifier": "all rules and all states", "why_tests_cant": "All rules, with missing references at any depth.", "anchors": ["pseudocode_semantics.py: Frame.run ({EE_RULE}), {EE_RULE} For each, {EE_RULE} the following algorithm returns"]}
{"id": "C47", "title": "A For-each step iterates over the List itself, not a copy", "statement": "If the body does not change the List, the body is executed for exactly its elements, in order, up to the first Return. If the body appends each element to the List it iterates over, execution never terminates, for every non-empty List.", "quantifier": "all bodies, all Lists and all states", "why_tests_cant": "Non-termination and all list lengths.", "anchors": ["pseudocode_semantics.py: {COMMAND} For each, ES_List.each, {COMMAND} Append"]}
{"id": "C48", "title": "The stream of tokens covers the text, whatever is asked and however often parts are reparsed", "statement": "At every point of every sequence of requests and reparses, the input elements that were not inserted, put together, are the text up to the point of scouting; the tokens are exactly the elements that are not blanks, line terminators or comments, in order, each knowing its place among the elements; there is one end mark, the last element, exactly when the whole text has been lexed.", "quantifier": "all texts, all lexical parsers that return pieces of the text, all sequences of requests and reparses", "why_tests_cant": "All histories of requests, insertions and reparses.", "anchors": ["es_parser.py: SyntacticTIP.__init__, _get_one_input_element, _scout_ahead, advance_token_cursor, insert_before_current_token"]}
{"id": "C49", "title": "[no LineTerminator here] and lookahead restrictions look at exactly the gap and the tokens after the current one", "statement": "[no LineTerminator here] holds exactly if no line terminator, and no comment with one, stands between the current token and the next, also if the next is not yet scouted; a lookahead restriction holds exactly if the texts of the next tokens begin (or do not begin) with one of the sequences. (Asking for the gap before any token is known raises IndexError.)", "quantifier": "all states reached by any requests; all restrictions of the three supported forms", "why_tests_cant": "All histories, gaps and restrictions.", "anchors": ["es_parser.py: SyntacticTIP.check_constraint, lookahead_matches_terminal_sequence, rel_token_matches_symbol, rel_gap_contains_a_LineTerminator"]}
{"id": "C50", "title": "Semicolons are inserted exactly according to the rules, at most once at each position", "statement": "A request reads the next token and returns exactly the expected terminals that it is an instance of; if there are none, a semicolon is inserted before it exactly if the token is the end, or follows a line terminator, or is a right brace, or the semicolon would end a do-while statement; and a semicolon is expected, would not be an empty statement (that is, no production of EmptyStatement expects it), and was not just inserted at the position. In a parse no position gets two. The lexical goal is the one for the expected kinds of tokens. A request fails only on text that cannot be lexed.", "quantifier": "all texts, lexical parsers, states and expected terminals", "why_tests_cant": "All token sequences and all requests.", "anchors": ["es_parser.py: SyntacticTIP.get_next_terminal_instances, get_named_token, get_lexical_goal_symbol, advance_token_cursor"]}
{"id": "C51", "title": "Parsing a node again reads exactly its tokens, unless a semicolon was inserted at its start or is inserted meanwhile", "statement": "After set_reparse_bounds, the requests read exactly the tokens that start in the given stretch, then an end, then nothing; a tree that the second parse returns is a derivation whose leaves are exactly these tokens if no semicolon is inserted, and nothing in it starts before the stretch. It fails with ValueError if an inserted semicolon stands where the stretch starts, as in do;while(0)(a) for (a). If a semicolon is inserted while reparsing, the end comes one token early.", "quantifier": "all states after any requests of a parse, all stretches", "why_tests_cant": "All token sequences and stretches.", "anchors": ["es_parser.py: SyntacticTIP.set_reparse_bounds, advance_token_cursor, insert_before_current_token"]}
{"id": "C52", "title": "parse() returns a tree that accounts for the whole text, or reports an error only where no derivation goes on", "statement": "A tree returned for a text and a syntactic goal: the text is the concatenation of elements that the lexical parser found one after the other, zero-length semicolons were added, the leaves are exactly the tokens in order, and the tree is a derivation from the goal with no line terminator where [no LineTerminator here] stands and no reserved word as identifier. ParseError: after the tokens read, no derivation goes on with anything but the expected terminals, and nothing is expected, or the text cannot be lexed there, or the next token is not expected and no semicolon may be inserted. With a lexical goal, a tree exactly if the whole text has a derivation. Parsing terminates for every grammar in which no symbol derives itself.", "quantifier": "all texts, all lexical parsers that return non-empty pieces of the text or ParseError, all grammars", "why_tests_cant": "All texts, grammars and token sequences; existence of derivations.", "anchors": ["es_parser.py: parse, _Earley.run, SyntacticTIP"]}
{"id": "C53", "title": "The expanded grammar derives what the grammar with parameters and optional symbols derives", "statement": "For every production and every choice of signs for its parameters, the nonterminal of that name in the expanded grammar derives exactly what the production derives with those signs (guards, arguments with +, ~ and ?, optional symbols, literals taken apart in the lexical grammar, constraints); its productions are, in order and once each, the alternatives whose guard holds; an optional symbol has exactly two productions. The expansion succeeds for every grammar with at most four parameters whose ? arguments are parameters. It is wrong in three ways: [lookahead is in a set] becomes [lookahead is not in the set]; an optional named terminal becomes a nonterminal without productions; an optional literal of several characters in the lexical grammar can never match.", "quantifier": "all grammars without those three features, with names free of +, ~ and ?; all texts and all readings of terminals and constraints", "why_tests_cant": "All grammars, and derivations of any size; the names of expanded nonterminals could clash.", "anchors": ["es_parser.py: simplify_grammar, each_params_setting, expand_nt_wrt_params_setting, simplify_prod, make_InputElement_common, add_exp_prod1"]}
{"id": "C54", "title": "Every node of a parse tree lies within its ancestors, siblings are in order, and texts are parts of each other", "statement": "For a tree made by ES_ParseNode whose leaves are in the order of the text and do not overlap: every node's extent lies within that of each ancestor and within the text; of two siblings, all of the left one ends before any of the right one begins; text() of a node is a contiguous part of text() of its ancestors, and the concatenation of the texts of the leaves if nothing is left out between them. Making a node of such children does not fail, whatever their number.", "quantifier": "all trees, texts and nodes", "why_tests_cant": "All shapes of trees, with empty nodes anywhere.", "anchors": ["es_parser.py: ES_ParseNode.__init__, text, _Earley.run (reduce)"]}
{"id": "C55", "title": "A syntax-directed operation executes the definition that the chain rule leads to", "statement": "For an operation without default definition, applied to a node in whose tree no optional terminal is present: going from a node without definition whose production has exactly one nonterminal to this nonterminal leads to one node; if there is a single definition for it, this is executed with that node as focus; otherwise the result is a fixed value (SV, VarDeclaredNames, Contains..., PropName of a CoverInitializedName) or an assertion fails. Contains, AllPrivateIdentifiersValid and ContainsArguments execute the definition of the node's own production, else the default. The rule is not followed if an optional terminal is present, as in import(x,): the terminal counts as a nonterminal.", "quantifier": "all maps of definitions, operations and trees", "why_tests_cant": "All trees and sets of definitions; chains of any length.", "anchors": ["pseudocode_semantics.py: execute_sdo_invocation", "es_parser.py: ES_ParseNode.__init__ (direct_chain)"]}
{"id": "C56", "title": "Early error rules are executed for exactly the nodes that count, and the errors of nested patterns are kept apart", "statement": "The rules are executed node by node, parents first and left to right, in the order of the specification; if no node whose rules were executed covers anything in the end, the nodes are exactly the non-terminal nodes of the tree where each covering node is replaced by what it covers. (A rule that makes its own node cover something comes too late.) get_early_errors_in returns the errors of the tree itself, in order, also if the errors of patterns are looked for meanwhile, and leaves no trace; anything else nested fails with AssertionError; after an exception within a rule the list stays behind and the next call fails.", "quantifier": "all trees, rules and covers that persist; all sequences of errors and nested calls", "why_tests_cant": "All trees, and rules with any effect.", "anchors": ["pseudocode_semantics.py: get_early_errors_in, traverse_for_early_errors, it_is_a_syntax_error"]}
{"id": "C57", "title": "Ancestors after a parse; nesting stops at function boundaries", "statement": "After a parse, each_ancestor of a node of the tree yields its ancestors, nearest first, and root() the root. A node is nested within given symbols exactly if one of its ancestors has one of these and no ancestor in between is a function, method or static block; asking for a boundary symbol fails with AssertionError. If a later parse shares a node (as reparsing does with named tokens), the ancestors of that node in the first tree are lost.", "quantifier": "all trees of distinct nodes, all lists of symbols", "why_tests_cant": "All trees and depths.", "anchors": ["es_parser.py: parse, add_parent_links, ES_ParseNode.each_ancestor, root", "pseudocode_semantics.py: node_is_nested_but_not_crossing_function_boundaries_within_a"]}
{"id": "C58", "title": "What a node covers is determined once, for the first nonterminal that is asked for", "statement": "The first time it is asked what a node covers, it is parsed again and the answer is a tree whose symbol is the wanted nonterminal, or None if this does not parse. From then on the answer is the same object without parsing again, and what other nodes cover stays. This is so even if another nonterminal is asked for: the answer then has the wrong symbol.", "quantifier": "all nodes, nonterminals, reparses and histories", "why_tests_cant": "All orders of requests.", "anchors": ["pseudocode_semantics.py: the_nonterminal_that_is_covered_by_pnode"]}
{"id": "C59", "title": "Unit derivation finds the first match on the way down through only children", "statement": "unit_derives_a returns a node exactly if it is the first with the symbol on the way from the node through only children; pnode_unit_derives_a_node_with_puk likewise for a set of productions; contains_a is true exactly if some node of the tree has the symbol.", "quantifier": "all trees, symbols and sets of productions", "why_tests_cant": "All trees and depths.", "anchors": ["es_parser.py: ES_ParseNode.unit_derives_a, contains_a", "pseudocode_semantics.py: pnode_unit_derives_a_node_with_puk"]}
{"id": "C60", "title": "The coverage analysis of syntax-directed operations reports exactly the gaps, and a clean report means no invocation is without a rule", "statement": "analyze_sdo_coverage_info reports exactly the productions, among those reached from the nonterminals of the invocations through chain productions, that have several rules, or none without being an exception or a chain, and the rules for no such production. If it reports nothing but unused rules, then invoking the operation on any parse tree of the grammar in which no optional terminal is present executes a definition, or the chain rule leads to a listed exception. With an optional terminal present this fails: the analysis does not count it but the invocation does. The analysis ends, unless a right-hand side has more than three optional symbols (AssertionError).", "quantifier": "all grammars, rules, lists of exceptions, parse trees", "why_tests_cant": "All grammars with chains in any shape, and all parse trees.", "anchors": ["Pseudocode.py: analyze_sdo_coverage_info", "pseudocode_semantics.py: execute_sdo_invocation"]}
{"id": "C61", "title": "Comparing a use production with its definition reports every deviation and files it under the right keys", "statement": "For a production that repeats right-hand sides of a definition, check_non_defining_prodns does not fail; it notes for each right-hand side the first one of the definition that matches it, or None; it gives messages exactly for those without a match, with several matches, for an order other than that of the definition, and for several with the same match; no message at all exactly if the matches are a strictly increasing function. The keys are exactly (reduced definition, bits) for the matches and the bits that agree with the optional symbols kept and left out, each with one bit per optional symbol.", "quantifier": "all productions and definitions", "why_tests_cant": "All lists of right-hand sides with any number of optional symbols.", "anchors": ["emu_grammars.py: check_non_defining_prodns"]}
{"id": "C62", "title": "An algorithm in which the static type analysis finds no type error does not go wrong", "statement": "Take operations whose parameter and return types are known. If the analysis of each (conditions, branches, loops, assertions, assignments, invocations) ends and reports no undefined variable, wrong type of an argument, missing argument, unconfirmed assertion or wrong return type, then any invocation with arguments in the parameter types, at any depth of nesting and recursion, returns a value in the return type; on the way no operation is applied to a value outside its parameter types, no loop runs over something that is not a collection, and no asserted type test is false. After each command the variables have values in their types; at each return they conform to an environment recorded for the inference of types. Exceptions: the type noted for an invocation survives the assignment to a variable in it (refuted then); \"it is not the case that both A and B\" is checked as if A and B were asserted; a List is accepted where a list of something is wanted; a loop whose body always returns, a command after a Return, and a return type that is partly a completion record raise AttributeError, AttributeError and NameError.", "quantifier": "all type hierarchies, programs of these commands, environments, stores and executions", "why_tests_cant": "All programs and all executions, with loops of any length.", "anchors": ["pseudocode_semantics.py: tc_nonvalue, tc_cond, tc_logical, tc_expr, tc_args, tc_loop, proc_add_return, tc_proc, TypedAlgHeader.make_env", "pseudocode_semantics.py: Env.plus_new_entry, ensure_expr_is_of_type, set_A_to_B, with_type_test, reduce, envs_or, envs_and"]}
{"id": "C63", "title": "The static type analysis settles: what it reports are the errors under the types it ends with, and it changes only types that were left open", "statement": "Take operations whose definitions are analysed by any procedure that looks only at the types of the operations called. If the analysis of all clusters ends, then (a) running it again from the types it ended with changes nothing and reports the same errors, and the errors reported for a definition are exactly those found with the final types; (b) a parameter or return type changes only if the header left it to be determined, and the messages about changes, read in order, lead from the first declared type to the last, each from the type as it is then to a different one; (c) what callers see of an operation at the end is what its header says, or the unions over its headers; (d) it gives up exactly when five passes over one cluster have each changed a type; (e) with nothing left open, nothing changes. (a) needs every operation looked at to be in the same or an earlier cluster, which the computed levels guarantee - except for the calls of ToPrimitive by ToNumber and ToString, which are left out of the graph: with an open type there an error is reported that does not exist under the final types. A cluster that settles after exactly five changing passes is given up although the sixth would find nothing to change.", "quantifier": "all sets of operations, headers, types and analyses of single definitions", "why_tests_cant": "All call graphs and all numbers of passes.", "anchors": ["pseudocode_semantics.py: do_STA_on_dependency_clusters, tc_alg, tc_header, summarize_headers, compute_dependency_levels, TypedAlgHeader.change_declared_type", "Graph.py: compute_dependency_levels"]}
{"id": "C64", "title": "A reference to a symbol of the production finds the right node, and the static check of references foresees when it does not", "statement": "In a rule of a syntax-directed operation, at a node as the parser makes it, a reference X, the X, the derived X, the first X, ... gives a node, or the absence of one, exactly if the reference has a meaning, and then the one that is meant: the node itself if X is only its own symbol, the only child that is an X or an optional X, the k-th one if there are several. Where X is both the left-hand side and on the right-hand side, a fixed table of productions decides. The static check reports exactly the ambiguous references; if it reports nothing, the reference finds the occurrence it is for at every node that fits one of the productions, and it is absent only if the type given by the check includes absence. This fails in three situations, each with a witness: a production that leaves out an optional occurrence of its own left-hand side; ordinals where occurrences are left out; 'the first X' where there is only one. A test whether a node is of a production gives the right answer and makes the names of its children available, even if the answer is no; a second test of the same node always raises AssertionError.", "quantifier": "all nodes, productions, names and ordinals", "why_tests_cant": "All productions with any arrangement of optional and repeated symbols, and all nodes that fit them.", "anchors": ["pseudocode_semantics.py: Frame._make_focus_map, augment_focus_map, resolve_focus_reference, s_resolve_focus_reference", "pseudocode_semantics.py: d_exec of {PROD_REF} and of {LOCAL_REF} is {h_emu_grammar}"]}
{"id": "C65", "title": "Asking for parts of a node: the child of a name, what it contains, how many, what contains it", "statement": "'the X of y' is the only child of y with symbol X, else AssertionError (so an optional child cannot be had, even if present). 'y contains an X' holds exactly if y or a descendant is an X, 'does not contain an X' is the negation; 'does not contain two Xs' is the same as 'does not contain an X' and so is wrong if there is one. 'the number of G Parse Nodes contained within y' counts exactly the nodes of these productions, y included, each once. 'contains two distinct Xs such that' answers no exactly if there are not two, and otherwise raises AssertionError. 'the X containing y' is the ancestor that is an X if there is exactly one, otherwise AssertionError.", "quantifier": "all trees, nodes, symbols and productions", "why_tests_cant": "All trees of any depth.", "anchors": ["pseudocode_semantics.py: d_exec of the {nonterminal} of {LOCAL_REF}, contains, number of Parse Nodes contained within, contains two distinct, the {nonterminal} containing", "es_parser.py: ES_ParseNode.preorder_traverse, each_ancestor"]}
{"id": "C66", "title": "Reading an <emu-grammar> element accepts exactly the written grammars and gets from each what is written", "statement": "A grammar is productions with a left-hand side, parameters, colons and right-hand sides of symbols, constraints, guards and labels; it is written in a fixed way, on one line or as a block with the indentation of the element. parse_emu_grammar accepts an element exactly if its content is a grammar written that way (names, terminals and labels made of the permitted characters; no symbol directly after 'but not one of'; at least two things after it; no range of characters on the line of a left-hand side), at column 2, 4, 6, 8 or 10 if there is a newline. Then it returns the productions in the order written, with left-hand side, parameter names, number of colons, and for each right-hand side its items, in order, as nodes with the text that stands for them, and its reduced form. It gives no message; the check of parameter prefixes never says anything. What it gets does not depend on what surrounds the element. A symbol after 'but not one of' is read as one more excluded thing.", "quantifier": "all documents, elements and grammars", "why_tests_cant": "All grammars of any size and all texts, in both directions.", "anchors": ["emu_grammars.py: parse_emu_grammar, simple_parse, metagrammar, reduce_rhs, decorate_misc, check_param_prefix"]}
{"id": "C67", "title": "Reading an <emu-grammar> element always ends; its messages are true; its failures have four reasons", "statement": "On every element parse_emu_grammar accepts, reports a syntax error, or fails an assertion; there is no other failure and it always ends. A reported position is between the beginning of the content and the end of the document, and the message is not empty; of each pattern said to have been expected, no match is there; of an indentation, the line before the position has another; 'end-of-input' is said only before the end of the content. An assertion fails only if the element has a newline and is not at column 2, 4, 6, 8 or 10 (then always), a later line has an odd indentation, the content and what follows begin with a grammar that goes on beyond the content, or it holds a grammar with only one thing after 'but not one of' or a range of characters on the line of a left-hand side (then always). All four occur: such mistakes in the document are not reported as messages.", "quantifier": "all documents and elements", "why_tests_cant": "All texts: termination, absence of other exceptions and truth of messages.", "anchors": ["emu_grammars.py: parse_emu_grammar, simple_parse, metagrammar, decorate_misc"]}
{"id": "C68", "title": "In the execution of the spec's pseudocode, parts of conditions and expressions are evaluated in order and only as far as needed", "statement": "A disjunction is false exactly if its operands were found false one after the other, and true exactly if one was found true after those before it were found false; the operands after it are not evaluated. Conjunctions likewise. 'a, unless c' evaluates c only if a is true and is true exactly if c then is not. Of a conditional expression only the chosen alternative is evaluated. In 'a, where x is b', b is evaluated first and without x; x is in scope during a only; afterwards the variables are those from before. A call evaluates the focus node, then the arguments in order, and then executes the algorithm that is in charge of that focus node. Each is stated as an equivalence, including the effects on the state.", "quantifier": "all conditions, expressions, algorithms, states", "why_tests_cant": "All nestings of constructs and all states, including ones in which operands that should not be evaluated would fail.", "anchors": ["pseudocode_semantics.py: EXEC, handlers of conditions and expressions, execute_alg_defn"]}
{"id": "C69", "title": "Early error rules record one error for each way in which they are violated, and nothing else records errors", "statement": "'It is a Syntax Error if c' records one error if c holds and none otherwise. A rule about the elements of a List tests all of them in turn and records as many errors as there are elements for which the condition holds. A rule with an algorithm executes it if its condition holds, records one error if the algorithm returns the wanted value, and the frame does not remain in the state of returning. A rule that applies other rules executes each of them, in order, with the same focus node. A list of rules executes all of them in order, also after one that is abandoned for a reference to something missing. Evaluation of expressions, conditions and steps records nothing, and what has been recorded stays recorded, whatever is executed and however it ends.", "quantifier": "all rules, algorithms, states", "why_tests_cant": "All lists of rules and all states.", "anchors": ["pseudocode_semantics.py: it_is_a_syntax_error, Frame.run, EARLY_ERROR_RULE handlers, execute_alg_defn"]}
{"id": "C70", "title": "The Record schemas are one tree, whatever order they are asked for in, and going up and going down it agree", "statement": "After any sequence of requests for schemas, constructions of new ones and declarations, the schemas form a tree under one root: each has one super-schema, one level above it, which lists it once; names are different and lead to their schema. A request never fails, gives the schema of that name, gives the same one when repeated, and changes nothing of what is there. Which schemas there are and which is the super-schema of which follows from what was asked for, not from the order. The preorder traversal of a subtree gives exactly the schemas below, each once and after its super-schema; going up gives exactly those above, without the root; the two agree, and agree with the subtype test of record types. The depth of a subtree is the number of its levels. Two weak points have witnesses: going up from the root raises AttributeError, and the constructor called for an existing name hides the old schema.", "quantifier": "all sequences of operations, all schemas", "why_tests_cant": "All orders of the tables of the specification.", "anchors": ["records.py: ensure_RecordSchema, RecordSchema, sub_to_super_relation, self_and_supers, preorder_traverse_subtree, get_depth_of_subtree", "static_types.py: RecordType.is_a_subtype_of_or_equal_to"]}
{"id": "C71", "title": "Declarations of fields and methods of Records: when they are refused, who has them, which of several counts", "statement": "Adding a field or a method declaration raises AssertionError exactly if the schema or one above it declares that name; otherwise exactly that declaration is added. Adding a definition of a method raises AssertionError exactly if that schema has one of that name, and prints a warning exactly if no schema in the chain declares the method. The fields of a record type are those declared in the chain, the nearer declaration counting. Adding keeps the fields unshadowed exactly if no schema below declares the field, which is not checked (witness). The schemas found for a method call are the topmost declarations, and every schema having the method by a declaration from the base down is below exactly one of them; these are all declarations if no method is declared again below, which is not checked either (witness).", "quantifier": "all sequences of operations, all schemas and names", "why_tests_cant": "All orders of the tables of the specification.", "anchors": ["records.py: add_field_decl, add_method_decl, add_method_defn, somebody_declares_field, somebody_declares_method", "pseudocode_semantics.py: process_declared_record_type_info, tc_invocation_of_record_method"]}
{"id": "C72", "title": "The check of ids: what it reports, when it fails, and what it leaves for the rest of the program", "statement": "check_ids comes to its end exactly if an element with id and aoid is a clause or an equation, ids found in algorithms are of the two permitted kinds, and every emu-xref has an href that is a fragment or an address; otherwise an assertion fails or the program exits. Every occurrence of an id but the first is reported as a duplicate, and nothing else is. The form of ids (prefix by the kind of element, kebab case of the names defined) is reported exactly where it is violated. A reference to an id nobody has is reported, but for five of imported tables. An id nobody refers to is reported, but for exempt kinds. If nothing is reported then no two elements share an id and every emu-xref leads to exactly one element. The index left behind maps each id to the last element that has it. A weak point has a witness: an element with an id inside an algorithm is counted twice and reported as its own duplicate.", "quantifier": "all documents", "why_tests_cant": "All documents; equivalence between what is reported and what is wrong.", "anchors": ["analyze_spec.py: check_ids"]}
{"id": "C73", "title": "The checks of trailing whitespace, blank lines and characters report exactly the places in question", "statement": "Reported are exactly: for every line that ends in spaces or tabs the position of the first of them; for every maximal run of two or more blank lines after the end of a line its last; every blank line directly before a line with an end tag of a clause; and every character outside the permitted set, with the number of its occurrences. In the order of the text, each once. The expressions used never fail and never run into each other so that a place is missed. Two blank lines at the very start of the text are not reported (witness).", "quantifier": "all texts", "why_tests_cant": "All texts; regular expressions with overlapping candidates.", "anchors": ["analyze_spec.py: check_trailing_whitespace, check_characters"]}
{"id": "C74", "title": "The check of indentation is silent exactly on documents laid out by nesting; messages are true; the first bad line is reported", "statement": "check_indentation reports nothing exactly if every element that is looked at has its tags first on their lines in the column given by the nesting (two per element around it, html, head, body adding none, thead and tbody as the next line has it, the end tag of a p with br exempt), and the lines of an element without block children form an outline: first line two further in, none less, only even steps, none more than two further in than the one before. It fails exactly on a pre whose code is not of class javascript. Each message tells the actual column and a different expected one. In one content every line is reported at most once; the first line with which it is no outline is reported and none before; what is said of a line depends on the lines up to it only. Lines indented by tabs are not looked at (witness).", "quantifier": "all documents (trees of elements with positions in a text)", "why_tests_cant": "All nestings and texts; the recursion over line ranges against a local condition on lines.", "anchors": ["analyze_spec.py: check_indentation, check_tag_indent, check_inline_content, check_lines"]}
{"id": "C75", "title": "The productions that define the grammar are checked, completed and collected into four grammars as the document has them", "statement": "process_defining_emu_grammars accepts exactly the lists of elements whose productions are well placed, well named, agree about colons and define no nonterminal twice in one part of the document, whose guards choose a sign of an own parameter, and whose references reach a production of the same part or of the main part; which exception otherwise is told. It reports exactly the arguments without a sign, references to undefined names, arguments that are not the parameters of the production meant, and signs that do not suit. The adding productions of annex B end up with the right-hand sides of the main part before their own, wherever these stand. make_grammars then never fails; each grammar has, in the order of names, for each name the production meant in its part, and each name is in exactly one of the two levels. If nothing is reported, every reference in the grammars of the main part passes exactly the parameters of what it refers to; in annex B too if it changes no parameters, not otherwise (witness). Goal symbols and named terminals are exactly the one-sided names; the insertion of ArrowFormalParameters never happens (witness).", "quantifier": "all lists of grammar elements with their sections", "why_tests_cant": "All grammars; relates two passes over the document in any order, and silence of a local check to consistency of the collected grammars.", "anchors": ["emu_grammars.py: process_defining_emu_grammars, defining_production_check_left, defining_production_check_right, NonterminalInfo, make_grammars, Grammar"]}
{"id": "C76", "title": "In the sections about syntax-directed operations exactly the right-hand sides out of definition order are reported", "statement": "check_order_of_RHSs_within_each_SDO_clause runs to its end exactly when, in each section about a syntax-directed operation, no emu-grammar is in a nested section, each right-hand side is of a defined production, and no two neighbours of one production differ in whether a defining right-hand side matches; otherwise it ends with AssertionError, AttributeError or TypeError for the corresponding reason. It reports exactly the right-hand sides that come before their predecessor in the definitions, with the numbers of both; grammars in algorithms and in other sections do not matter. If it reports nothing, any two right-hand sides of such a section, not only neighbours, are in the order of the definitions, and conversely.", "quantifier": "all trees of elements with emu-grammars anywhere in them", "why_tests_cant": "All trees; local comparisons against an order of the whole sequence over several elements.", "anchors": ["emu_grammars.py: check_order_of_RHSs_within_each_SDO_clause", "HTML.py: each_descendant_named, each_descendant_that_is_a_section, closest_containing_section"]}
{"id": "C77", "title": "The emu-prodref elements are checked against the nonterminals of the main part", "statement": "check_emu_prodrefs, after any accepted list of definitions, runs to its end exactly when each element has a name that the main part defines and each with the attribute a follows one without it for the same name; otherwise it ends at the first element at fault, with KeyError if that has no name and AssertionError if not. It reports first the elements that repeat a name, then the productions of the main part that no element names, in document order, each once. If it reports nothing, the elements without the attribute a name exactly the nonterminals of the main part, each once.", "quantifier": "all accepted lists of definitions and all lists of emu-prodref elements", "why_tests_cant": "All documents; completeness of one list against another with repetitions.", "anchors": ["emu_grammars.py: check_emu_prodrefs"]}
{"id": "C78", "title": "References to nonterminals in the text are checked against the definitions", "statement": "check_nonterminal_refs takes for references, from the left and without overlap, two bars with two or more characters between them of which the first is of a word. It reports exactly the ones that are not of the form Name, Name?, Name[args] or Name[args]?, the names that are not defined, the arguments without a sign, and the argument lists that are not the parameters of the production meant in that part of the document. It ends with IndexError exactly for an empty argument and with AttributeError for arguments of a nonterminal that neither this part nor the main part defines. If it reports nothing, every reference is to a defined nonterminal and passes its parameters in order, all with signs. One-letter references are never looked at (witness), and without the mark of annex B all references are judged as in annex B (witness).", "quantifier": "all texts, all accepted lists of definitions, all classifications of the characters beyond ASCII", "why_tests_cant": "All texts; regular expressions with overlapping possibilities against a declarative description.", "anchors": ["emu_grammars.py: check_nonterminal_refs, NonterminalInfo.get_appropriate_def_occ"]}
{"id": "C79", "title": "When pseudocode is executed, X is Y says what it means", "statement": "same_value, on which the conditions X is Y, X is not Y, X is also Y and X is neither ... nor ... rest, is an equivalence relation that never misses that two values are the same, and, for values without Numbers, Symbols and Objects in them, holds exactly of values that are the same (Lists element by element, mathematical values by value, Parse Nodes by identity). A description by literals, by kinds of value or by grammar symbols is then answered as it means, whenever it is a sensible question about the value; otherwise it ends with AssertionError. The negative wordings give the opposite answer. All Numbers are taken for the same value, so every Number is NaN (witness), as are Symbols with the same description and Objects with as many properties (witnesses).", "quantifier": "all values, all descriptions of the modelled kinds", "why_tests_cant": "All values of unbounded depth; equivalence against a declarative identity; the failing class of values is characterised exactly.", "anchors": ["pseudocode_semantics.py: same_value, value_matches_description, EL_Number, EL_Symbol, EL_Object"]}
{"id": "C80", "title": "Questions about Lists are answered correctly", "statement": "For Lists of values without Numbers, Symbols and Objects: duplicate elements, elements in common, occurrence more than once, containment, occurrence in neither of two Lists, emptiness and presence of a nonterminal are answered as they mean, with both wordings; anything but a List ends with AssertionError. Concatenation and appending give the Lists they should; inserting or prepending ends with AssertionError. The duplicate entries for a name obtained from productions of some forms are found exactly when the name occurs twice in the List and two definitions of those forms have it, in the textual order of the definitions; if the List consists of the definitions' names, the second part suffices. A List of any two Numbers is reported to have duplicates (witness).", "quantifier": "all Lists of such values, all lists of property definitions", "why_tests_cant": "All Lists; quantified statements over positions.", "anchors": ["pseudocode_semantics.py: ES_List, conditions on Lists, contains any duplicate entries ... obtained from productions"]}
{"id": "C81", "title": "Strings, code units and code points are made and examined correctly", "statement": "A String is made from a Python text exactly if that is ASCII, and String literals give the text with escaped asterisks restored. A code unit or code point with a numeric value is made exactly for integers in range. A literal the code unit 0x.... (NAME) has the value of its digits; the short form of the literal always fails (refuted), as does a numeric value that is a quotient, even a whole one (witness). String-concatenation accepts exactly code units and Strings and puts them in order. The test for reserved words is that the String is one other than yield and await. Repeated code points, code points other than some, containment and numbers of code points with and without separators are answered exactly. A surrogate pair is taken for two code points (witness).", "quantifier": "all texts, all code units and code points, all lists of parts", "why_tests_cant": "All texts; injectivity of escapes and exactness of a hand-written match.", "anchors": ["pseudocode_semantics.py: EL_String, ES_CodeUnit, ES_UnicodeCodePoints, ReservedWord condition"]}
{"id": "C82", "title": "Arithmetic in executed pseudocode gives the mathematical values", "statement": "Sums, differences, products and powers of integers are exact, modulo is as the specification defines it and refuses zero. A quotient is the double nearest to the exact one; the floor of a quotient is exact for integers below 2^53 (and wrong for some beyond: witness), which makes the computation of surrogate pairs exact for every code point. Comparisons with at most, at least and greater than are exact for every two values, whether integers or quotients; the other comparators of the grammar always fail (refuted). Decimal and hexadecimal literals have the value they denote. At most 20 significant digits is answered exactly for non-negative integers. The Number value for an integer is exact below 2^53 - 1 and infinite from 2^1024 on; for the rest, including 2^53 - 1 itself (witness), it fails.", "quantifier": "all integers, all doubles, all literals", "why_tests_cant": "All integers, including those where double rounding starts to matter.", "anchors": ["pseudocode_semantics.py: ES_Mathnum, {SUM}, {PRODUCT}, {NUM_COMPARISON}, the_Number_value_for"]}
{"id": "C83", "title": "Which characters a symbol of the lexical grammar matches", "statement": "The sets of characters that are gathered for the five nonterminals (LineTerminator, EscapeCharacter, HexDigit, OctalDigit, SyntaxCharacter), and the reserved words, are exactly the texts those derive, and are found for every grammar without cycles. A symbol of a right-hand side is answered for exactly if it is a single character, a known name, a range, one of the two Unicode properties or one of the five nonterminals, and matches exactly the characters it stands for; but the parser takes U+2E2F, which has neither property, for an ID_Start (refuted part). Constraints but not, but only if (thresholds and surrogate ranges; exactly one of the three conditions on Hex4Digits holds) and lookahead, also at the end of the text, are decided exactly. The question of pseudocode whether a character is matched by a lexical nonterminal is answered by the derivations from the grammar with the exact Unicode properties, fails on productions with one of (refuted), and agrees with the parser for all characters but U+2E2F (witness).", "quantifier": "all characters, all assignments of general categories, all grammars", "why_tests_cant": "All 0x110000 characters times all Unicode versions times all symbols; two independent implementations have to agree.", "anchors": ["es_parser.py: gather_char_sets, gather_ReservedWords, lexical_Rsymbol_matches_char, LexicalTIP.check_constraint", "pseudocode_semantics.py: unicode_character_has_property, pychar_matches_lexical_nonterminal"]}
{"id": "C84", "title": "The validation of the markup reports exactly what is wrong", "statement": "For every document, whatever the tables of elements and attributes: the messages are exactly those that some node is to be reported for: runs of two or more spaces that are no indentation (cells of lightweight tables excepted); characters that should be entities and entities that should be characters, depending on the parent; content that starts or ends with a space; missing, unexpected, unknown, badly valued attributes; children of unknown kind; block-level beside inline children; elements without a content model; contents that the model does not describe. Content models are read in one way only and matched exactly. Nothing is printed exactly if there is nothing to report. It fails exactly if there is a th or td outside of every table (refuted as a validation: a stray td is not reported but ends the run). One comment between whitespace makes no difference, of two in a row one is left, and a valid list is reported (witness); so is a space between two anchors without other text (witness), and every algorithm with a figure although its model allows it (refuted). Two spaces at the very start of the text are overlooked if the text ends with a newline (witness). The tables: keys are unique, every model can be read, every name in a model has an entry, every attribute allowed has a pattern; but emu-todo can stand nowhere and one pattern is for an attribute that cannot be (witnesses).", "quantifier": "all documents (trees of any depth), all texts, all tables of elements and attributes", "why_tests_cant": "All trees of unbounded depth; equivalence with a declarative list of complaints; semantics of regular expressions.", "anchors": ["HTML.py: _validate, element_info, attribute_info"]}
{"id": "C85", "title": "What is read from the front matter of a test, and how the tests are counted", "statement": "Every text is split into lines in one way. A front matter is accepted exactly if its lines form a block (a sequence of items, or a mapping with entries on one line, in a list between brackets, as text in several lines, or as a nested block at any depth), and the result is what the block means, in order, each key once; anything else is refused with a failed assertion, never in another way. For every file the outcome is exactly: ValueError if one of the two marks is absent or there is a second one apart from it; a message if the copyright section has a line that is no comment (three families of paths excepted); a message if the front matter cannot be read; AssertionError if it is no mapping or has no description, or values that are not allowed; otherwise the test is counted, with one message for each unknown key and flag in alphabetical order. One run if one of onlyStrict, noStrict, raw is a flag, otherwise two. Refuted: a first key with a block value is refused; a list as front matter stops the whole run; module tests are counted twice; spaces before a comma or bracket become part of a flag; an empty text in several lines is the text of a bar; comments are refused or become text; two overlapping marks count as one.", "quantifier": "all texts of files, all paths; front matters of any nesting depth", "why_tests_cant": "All texts and all nestings; equivalence between index arithmetic on line positions and a declarative grammar of blocks.", "anchors": ["test262.py: test_one, parse_frontmatter"]}
{"id": "C86", "title": "Variables of algorithms that are not used or not defined are reported", "statement": "For a whole algorithm, the reports are exactly: each name that its header (parameters, variable of the 'for' phrase) or its body defines and that it never uses, once, at its first definition (the parameters of operations discriminated by syntax or type excepted); and each name that it uses and that nothing defines, once, at its first use; in the order of the names. The check cannot fail on trees of the forms that the grammar provides for. An algorithm is left out exactly if one of two marks is in the 100 characters before it, or if it is missing. The order in which algorithms were found is of no importance. Refuted: an algorithm after a short replacement of a step is not checked (witness); a replacement of a step within the first 100 characters is checked as if whole (witness); a use before the definition is accepted (witness); a parameter that no definition of a discriminated operation uses is never reported (witness).", "quantifier": "all trees of pseudocode, all headers, all texts and positions", "why_tests_cant": "Trees of unbounded depth; exactness and order of the whole list of messages.", "anchors": ["Pseudocode.py: check_vars, check_vars_in_anode", "Pseudocode_Parser.py: ANode.each_descendant_or_self"]}
{"id": "C87", "title": "If-commands with arms of different forms are reported", "statement": "For every tree whose If-commands are as in the grammar, the messages are exactly, in reading order: one for each If-command with arms (in any number) of which some are indented and some on one line, listing the forms of all arms in order; and one for each If-command on a single line whose two branches do not begin with the same return, let or set of the same variable. No other command is reported and the check does not fail. The common prefix is the longest text that all branches begin with. The order in which algorithms were found is of no importance. Branches that perform the same operation or set the same field are reported, although the convention allows them (refuted).", "quantifier": "all trees of pseudocode, any number of arms, all source texts", "why_tests_cant": "Unbounded numbers of arms and depth; the common prefix is taken of the least and the greatest text only.", "anchors": ["Pseudocode.py: check_for_unbalanced_ifs, each_if_arm"]}
{"id": "C88", "title": "Disjunctions of values are in order and introduced by the right word", "statement": "For every tree whose disjunctions are of known terms and in known places, the messages are exactly, in reading order: for a disjunction in which a term for one value comes before a term for many, the kinds of its terms in order; and for a disjunction introduced by another word than it should be (in prose 'one of' for three or more single values and 'either' otherwise; in declarations none, but 'either' before a normal completion containing something), the two words. The right word always exists and is unique. Of the 207 descriptions of the grammar all but two, and of the 14 places for value descriptions all but one, are known; those three stop the whole run with AssertionError when they occur with a disjunction (refuted).", "quantifier": "all trees of pseudocode; all alternatives of the grammar", "why_tests_cant": "Trees of unbounded depth, disjunctions of any length; coverage of the grammar is a universally quantified statement.", "anchors": ["Pseudocode.py: check_value_descriptions, check_val_desc_disjunction, single_or_multi", "pseudocode.grammar: {VAL_DESC}, {VALUE_DESCRIPTION}"]}
{"id": "C89", "title": "The analysis of static dependencies lists exactly the calls, and what they can and cannot reach", "statement": "For all sets of algorithms: every algorithm is listed once, operations before functions and by name, with exactly the operations its trees invoke. The names listed as referenced but not declared are exactly those that calls lead to from the top-level points and the functions but that no operation has; the operations listed as not reached are exactly the others. Operations with two kinds of labels, labelled operations that parsing cannot reach, unlabelled ones that it can, and calls across the border are listed exactly and in order. Operations said to look like run-time semantics are those from which calls lead to one that does, if no function has the name of an operation; otherwise the calls of a function count as those of the operation of the same name and an innocent operation is reported (refuted). The nodes invoking an operation are collected each once in document order. Recursive calls do not keep the searches from ending, no lookup fails, and only an element with a tree of its own outside the early errors, one that was not parsed, or an unexpected definition stops the analysis.", "quantifier": "all algorithms, call graphs (cyclic ones included), trees and sections", "why_tests_cant": "Reachability in graphs of unbounded size with cycles; exactness of least fixed points; termination.", "anchors": ["Pseudocode.py: analyze_static_dependencies, reach_op, ss_reach_op, looks_runtimey", "algos.py: Alg"]}
{"id": "C90", "title": "Invocations of operations in pseudocode are annotated, all of them and nothing else", "statement": "For every tree that follows the grammar, annotate_invocations finishes, and the annotated nodes are exactly the invocations in the tree, in reading order, however deeply they are nested in each other: the two-word forms, those with 'with arguments', 'Contains', the CharSet of a grammar, calls with parentheses (by name, by method, by field of a record, by the two variables that stand for lists of operations), and IfAbruptRejectPromise; each with the names of the operations it may invoke and its arguments in the order in which they are written, any number. A call of a method of the current realm (C.[[X]](...)), which the grammar has, ends the run with a ValueError; and the command that sets fields of an object and calls CreateBuiltinFunction is never noticed, as the grammar writes it differently.", "quantifier": "all trees of the grammar, argument lists of any length, all source texts", "why_tests_cant": "Trees of unbounded depth; equivalence with a declarative definition of invocations over all productions.", "anchors": ["Pseudocode.py: annotate_invocations, exes_in_exlist, exes_in_exlist_opt", "pseudocode.grammar: {NAMED_OPERATION_INVOCATION}, {PREFIX_PAREN}"]}
{"id": "C91", "title": "Optional parameters that are always or never supplied are reported", "statement": "If the invocations are calls with parentheses or of the forms '{cap_word} of {LOCAL_REF}' with or without arguments, check_optional_parameters finishes and reports, by operation and then by parameter, exactly the optional parameters of operations without invocations, those that every invocation supplies, and those that none supplies, each once and with the number of invocations. The arguments that it counts are those of the annotation (without the node a syntax-directed operation is about). An operation with an optional parameter that is invoked in a form with 'the' ends the run with an AssertionError.", "quantifier": "all sets of operations, parameter lists and invocations", "why_tests_cant": "Exactness and order of the whole report over unbounded numbers of operations, parameters and invocations.", "anchors": ["Pseudocode.py: check_optional_parameters, exes_in_exlist_opt"]}
{"id": "C92", "title": "'the' before names of syntax-directed operations", "statement": "If all invocations of syntax-directed operations are of their own forms, check_the_sdo_name finishes and says, operation by operation in alphabetical order and invocation by invocation: 'no invocations' of those that have none (Early Errors excepted); of each invocation with 'the' that it should not have it if the operation takes none (by its name or by what it returns) or if the invocation is inside the parentheses of another; of each invocation without 'the' that it should have it if neither is the case; and nothing else. The rule that operations returning completion records take no 'the' is not kept for those that return a normal completion containing something or a throw completion; an SDO that is called with parentheses ends the run.", "quantifier": "all sets of operations and invocations at any depth", "why_tests_cant": "Exact list of messages for unbounded sets; the regular expression over all texts.", "anchors": ["Pseudocode.py: check_the_sdo_name", "Pseudocode_Parser.py: ANode.closest_containing"]}
{"id": "C93", "title": "Paths of properties are taken apart and normalized consistently", "statement": "split_prop_path accepts exactly the well-known symbols, the quoted names, the single words, and the paths (a word or an intrinsic, followed by components '.name' or '[%Symbol.name%]' with optional spaces, any number); a path is split before its last component in the one way there is, and everything else fails with the assertion, never otherwise. normalize_property_path accepts exactly paths (also after the two phrases for generator prototypes) whose symbols are written with spaces, and gives the name with its components, symbols without spaces; everything else fails with the assertion. Where both work, the container of the one is the beginning of the path for the other. Normal forms are not paths again (normalizing twice fails), and an intrinsic and a global of the same name get the same normal form. Lists of attributes are read back as they were written, the last value counting for a repeated name, unless a value contains comma and space, which ends the run; literals are undone by destarquote.", "quantifier": "all texts, paths of any length, all alphabets of word characters", "why_tests_cant": "All strings; regular expressions with lazy and greedy repetition, ambiguity of optional spaces.", "anchors": ["Section.py: split_prop_path, attr_string_to_dict, pystr_to_spec_String_literal, destarquote", "intrinsics.py: normalize_property_path"]}
{"id": "C94", "title": "Sections of properties are reported exactly where they are out of order, and aoids where they are wrong", "statement": "The check of the order of sections gives a message for a property in a section of properties exactly if its sort key is not greater than that of the property next before it in the section (other subsections between do not matter), each once and in order, as long as no section of properties contains a subsection of a kind it should not, which is the only thing that ends the run, with the assertion. Without such subsections, nothing is said if and only if the keys of the properties increase strictly in every section. The key of a title made of a name, components and a rest is as documented: 'get ' does not count, capitals do not count, symbols come last (but for regular expressions), names with two underscores just before, and Int8 before Int16. The check of aoids says of a section exactly one of the three messages if it has an aoid and should not, lacks the one it should have, or has another one; shorthands and unclassified sections with a named header end it with the assertion.", "quantifier": "all trees of sections, all titles, all functions that lower ASCII letters, all alphabets of word characters", "why_tests_cant": "Any tree and any titles; the order of titles under five rewritings by regular expressions.", "anchors": ["Section.py: _check_section_order, _check_aoids", "HTML.py: each_descendant_that_is_a_section"]}
{"id": "C95", "title": "Tables of the specification are taken in without losing or inventing anything", "statement": "analyze_table takes a table in exactly if it has exactly one caption (an attribute, a child element, or for abstract methods one made up), and its rows, in document order, are one header (all cells th) followed by rows of data (some cell not th), all with at most the attribute id and only th and td in them, as many texts as the header has unless it is the table of numeric operations, and columns spanned only in the table of import forms; then the caption, header and rows are those. The missing id is the only thing said. As a dictionary a row gives for a heading the cooked text of the last column with that heading, so with different headings nothing is lost, and with equal ones the first is. A row of data before any header ends the run with an AttributeError, a row without cells counts as a header; other errors are the assertion, the KeyError for a missing 'of' and those of int. What is written as code with backslashes doubled and < and > as entities is read back; texts without markup stay; the result never contains the entities; cooking twice is not the same as once. The unique row with a value in a column is found exactly if there is exactly one.", "quantifier": "all tables (trees of elements with attributes and texts), all conversions of texts to integers", "why_tests_cant": "Trees of any shape; strings of any content with escapes and entities overlapping.", "anchors": ["emu_tables.py: analyze_table, quasi_ecmarkdown, TableRow", "pseudocode_semantics.py: emu_table_get_unique_row_satisfying"]}
{"id": "C96", "title": "The headers of an algorithm are accepted or reported exactly as their inconsistencies require", "statement": "check_alg_consistency accepts an algorithm exactly if every header has its name and species; the species is a shorthand (without headers), discriminated by type (every header lies in a section with one of the known titles and no two headers have the same for-phrase), or discriminated by syntax, singular or a built-in function (no header has a for-phrase); parameters that a later header shares in position with the first are equal; and no header of a built-in function or early-error rule states what is returned. The parameters of the algorithm are then those of its first header. The lines written are those of its faults, each once and in order: headers with another for-phrase than their section requires, later headers with another number of parameters than the first, of several headers of steps the first without and every later one with a statement of what is returned, and otherwise any header without (unless discriminated by type). Anything else ends the run, with the assertion, or with KeyError or TypeError for a section with an unknown title or none. Operations by name come before built-in functions by name, and the first unacceptable algorithm ends the run after the lines of those before it.", "quantifier": "all algorithms with any headers, all sets of operations and built-in functions with different names", "why_tests_cant": "Any number of headers with any combination of faults; which of them are fatal and which reported.", "anchors": ["algos.py: check_alg_consistency, elements_are_distinct"]}
{"id": "C97", "title": "Listings of parameters are read as written and titles reported exactly for what is odd in them", "statement": "convert_parameter_listing_to_params accepts exactly the listings (after stripping) that are empty or items separated by comma and space, each an optional opening bracket, optional dots, a name between underscores, and closing brackets or an opening one; the parameters are then those names in order, 'rest' with dots, optional exactly if a bracket was opened at or before them; dots after an opened bracket and everything else fail with the assertion. Balance of brackets is not checked, and a parameter after a closed bracket is optional. check_section_title accepts a title exactly if it has at most one '(' and at most one ')', and otherwise fails with the assertion; it says at most three things in this order, each about the first place and only if it is so: a word of two or more characters beginning with a small letter (unless under 'Terms and Definitions'), an at-sign in brackets without a conforming reference to a symbol, and a parenthesis that is not that of a list of parameters at the end. Words that merely begin with an, and, for, in, of, on, the, to or with are not reported.", "quantifier": "all titles and listings, all alphabets of word characters", "why_tests_cant": "All strings; searches by regular expressions with lookahead and greedy repetition.", "anchors": ["Section.py: convert_parameter_listing_to_params, check_section_title"]}
{"id": "C98", "title": "Grammars for pseudocode are taken in exactly as written", "statement": "convert_grammar_string_to_productions accepts a grammar exactly if its lines are blank, comments, left-hand sides (a name in capitals in braces, each at most once) and right-hand sides that can be cut into pieces, with {EPSILON} only alone, and if every nonterminal used has a left-hand side. It then gives, in order, one production for each right-hand side, with the left-hand side last before it; its pieces put together are the line, each of them of the first of the 26 forms that any beginning of the rest has (which is unique), and none for {EPSILON}. It exits exactly if the first line that is not accepted is a right-hand side that cannot be cut; otherwise it fails with the assertion. Escapes are never undone. A name in braces with mixed capitals is not seen to be undefined; a nonterminal with a left-hand side but no production is accepted; right-hand sides before any left-hand side are accepted; a line of spaces is an empty production.", "quantifier": "all texts, all alphabets of word characters", "why_tests_cant": "All texts; an ordered choice of regular expressions with boundaries and lookahead, applied repeatedly.", "anchors": ["Pseudocode_Parser.py: convert_grammar_string_to_productions, reo_for_rhs_piece_in_pseudocode_grammar"]}
{"id": "C99", "title": "References to steps are found, resolved and reported as they are written", "statement": "The search takes up exactly the places where, at a word boundary and in capitals or not, 'step' or 'steps' is followed by a space and a digit or an angle bracket, each once and in order. The references at such a place are those of the first of seven forms (three in a row, a range with hyphen or dash, two with 'and', five, four or one after the singular) that fits. The run of all references ends well exactly if every place lies on a line between newlines, in a text whose parent is one of p, li, emu-alg and dd, and has ids that all belong to an emu-alg with the id in one of its lines; yielded are then, in order, the nearest section and the line of the place with the nearest section and the first such line of the algorithm. Otherwise it stops at the first place where that is not so, with the error for it, after the references before it. The report has, for references in and to sections, a heading where the section is not that of the reference before, the line where it or the section is another, and the step meant. The node at a position is found by the first child whose closed range has it: in a document in order this is the text if all nodes on the way begin before the position or are first children, but directly behind another element the assertion fails. A reference by a number anywhere makes the run fail; of 'step X and Y' only X is taken; 'steps X' alone is no form; a first reference outside of all sections ends the report with a NameError.", "quantifier": "all texts, all trees of nodes, all tables of ids, all alphabets of word characters", "why_tests_cant": "Any document; overlapping matches, the order of the forms, ranges of nodes touching each other.", "anchors": ["Pseudocode.py: check_step_references, each_step_ref, find_deepest_node_covering_posn"]}
{"id": "C100", "title": "What preambles say is taken out rule by rule and compared with the header", "statement": "The text of rules is read as chunks between blank lines, comment lines left out: the first line is the pattern, the others are templates of distinct keys, and 'v' is the empty template if not given; a line that is no template ends with a NameError, not with the intended exit. A paragraph is trimmed, run through the multi-sentence rules, cut at the spaces after full stops, and each sentence is run through the single-sentence rules; a rule that matches the whole of the current subject adds its named groups and its templates but v, and passes down v, until nothing is left. What is left of the sentences is the description; a paragraph that no rule matches is described by its sentences with single spaces. Notes and pre elements are skipped. Rules are reported as unused exactly if their count is 0. The comparison accepts exactly if the kinds fit the species, there is at most one name, the parameters stated are understood and have the names in the header (if both are known), abrupt returns are said once and there is no description yet; the warnings are, in this order, on the name, on several statements about parameters, on punctuation and nature of parameters, and on the variables of the description (sorted, each once) that are neither parameters nor known exceptions. If the names of parameters differ, the run ends with a TypeError before the names of the preamble are written; an unknown kind is a KeyError; all other failures are the assertion.", "quantifier": "all texts of rules, all interpretations of the regular expressions, all preambles and headers", "why_tests_cant": "Rules feed each other in order, any paragraphs can come; the branch for different names is never taken in a run that ends.", "anchors": ["function_preambles.py: ExtractionRules, HeaderConstructionRule, extract_info_from_preamble, note_unused_rules, PreambleInfoHolder.compare_to_header, check_header_against_prose"]}
{"id": "C101", "title": "The tables of well-known intrinsics are read exactly, and references and globals are checked against them", "statement": "A table is read to its end exactly if it has one of the two captions, the three headers, and rows of a name between percent signs that was never seen before, nothing or the same name in stars and quotes, and a text of one of three forms; yielded are the rows with the phrase, and the known names and names of globals are then exactly those added (the assertion that a global is new never fails, as it looks for the wrong string, but the names are new anyway). Otherwise the rows before the first bad one have been yielded, and it ends with a ValueError if that has not three cells, else with the assertion. The facts put for a row: it exists, a global is known by its name and is the value of that property of the global object, others are kept apart, and a phrase is another name, without ticks and marks. The check of references goes through the literals from left to right, takes every %...% without spaces as soon as it begins, and says that an intrinsic does not exist exactly if it is not one of four placeholders and the part before the first full stop (if something follows it) is not a known name. Nothing is said of a name whose first percent sign ends another one. The check of globals ends well exactly if all sections on properties have titles that are a name, or a name and parentheses; the lines are the names on one side only, sorted, each once.", "quantifier": "all tables, texts, sets of names, section trees, all alphabets of word characters", "why_tests_cant": "Any table and text; regular expressions with unbounded repetition, overlapping candidates.", "anchors": ["intrinsics.py: each_row_in_wki_table, check_references_to_intrinsics", "Section.py: extract_intrinsic_info_from_WKI_section", "analyze_spec.py: check_globals"]}
{"id": "C102", "title": "The id of a section is accepted exactly if it comes from the title by the rules of the section's kind, or is a known exception", "statement": "For each kind of section the ids that may be derived are exactly those reached from its title by one choice per stage of the kind's pipeline (replacements of all matches from the left without overlaps, names of parameters with their former names, the parent's title, lower case but for the last name, and so on). No message is given exactly if the kind is one of the three that are not checked, or the id can be reached, or it is in the kind's list of exceptions; otherwise there is exactly one message, naming the kind and listing exactly the ids that can be reached, sorted, each once. There is always at least one, and exactly one for ten kinds. The check ends with the assertion exactly for kinds that are not known. Every derived id begins with sec- (but for operations whose titles begin with TypedArraySpeciesCreate or Await), and has no spaces (but for host-defined, implementation-defined and numeric ones, where a space is let through: refuted). The removal of an initial The for properties removes it anywhere in the title, so that the list of parameters after a name ending in The is not found (refuted).", "quantifier": "all kinds, titles, ids and parents' titles, all alphabets of word characters, all lower-case mappings", "why_tests_cant": "Titles are unbounded texts and choices multiply over fourteen stages; the specification has only ids that pass.", "anchors": ["Section.py: check_id, apply_pipeline, extract_param_names, lower_except_last_propname, split_words, split_certain_words, undo_3238"]}
{"id": "C103", "title": "The tables of Record fields and methods declare exactly the schemas that their captions and rows say, and every other table is checked by its caption", "statement": "The extraction ends well exactly if each table about fields (or about methods of Records) has a caption of a known form, a header of a known form and rows of the required shape, no table declares a field of Environment Record itself, and each declaration, in the order of the tables and then the program's own, fits those before it (no second one under or over which the name is already declared). The result then has exactly the schemas mentioned and those above them, with exactly the fields and methods declared. The check of tables ends well exactly if each table has a header and, by the first kind that its caption belongs to (Records, slots, internal methods, proxy handlers, interface properties, attributes, other), the required header line; the cells parsed as value descriptions are exactly those of the column of values. Tables that declare something about Records pass and none of their cells is parsed there. A field that is declared below before it is declared above goes unnoticed (refuted, with [[OuterEnv]]); a field of the root ends the run with an attribute error (refuted).", "quantifier": "all lists of tables, captions, headers and rows, all parsers of types and signatures, all alphabets of word characters", "why_tests_cant": "Any number of tables in any order; the specification has only tables that pass.", "anchors": ["records.py: extract_record_schemas, FieldDecl, MethodDecl, RecordSchema", "analyze_spec.py: check_tables"]}
{"id": "C104", "title": "Phrases for intrinsic objects are given one name each, and a fact about them is recorded for everything that it stands for", "statement": "A phrase gets a name exactly if it is of one of the known forms (a name in percent signs, 'the global object', six fixed phrases, 'the prototype of X iterator objects', 'the X prototype object', 'the X constructor', 'get' or 'set' and a path, a path of properties and so on); the first form that fits decides, and the name is the one in percent signs with the words joined in capitals. A fact in a section whose title has _NativeError_ (or else _TypedArray_) is expanded for each of the names, in order; in each text of the fact the eight forms of the variable are replaced one after the other, and nothing is left of the variable if the name put in has no underscore and is not a part of it. A fact is taken in exactly if all of its expansions can be named; then there is one for each, none for is-aka, which demands the same name; the right side is kept for exists and is, and else texts that begin like values are kept and others are named, attribute by attribute. If one cannot be named, exactly the facts before it have been recorded. The messages on the way in which a preamble refers to its function are exactly: by name (not Each), and method or not as the title or the object has it; it fails exactly if the name is a path to another property. Naming is not stable: the name for 'the %GeneratorFunction.prototype.prototype% object' gets another name when named again, and one with a symbol none (refuted); the article is also replaced at the end of a word (refuted); the second variable of a title is left (refuted).", "quantifier": "all phrases, titles, facts and lists of names, all alphabets of word characters, all upper-case mappings", "why_tests_cant": "Phrases are unbounded texts matched by a cascade of regular expressions; replacements interfere with one another.", "anchors": ["intrinsics.py: get_pdn", "Section.py: section_put_fact, normalize_side, check_this_function, confirm_this_property"]}
{"id": "C105", "title": "Each piece of pseudocode is parsed once, its tree is connected with the elements inside, and the checks of coverage say exactly what they look at", "statement": "A node is parsed exactly if it has no tree yet, its name and the stated purpose give a goal (eight combinations), and either the parser gives no tree and the section can be named, or the nodes of the tree that mention elements (grammar, algorithm, figure, link, pre) correspond one by one, in the order of the document, with such elements below the node; then each is connected with its own. In any sequence of calls nothing is parsed twice, the parser is called once for each in order, and earlier results stay. Going through the blocks of a section leaves every algorithm in them, however deep, with a tree set; the parser is called for exactly those that had none and do not merely show the format. The check of algorithms passes exactly if every emu-alg is a child of emu-clause, emu-annex, emu-note, td or li and has a tree set; after all sections only the place matters. The check of equations passes exactly if those with an equals sign and an aoid are in a clause of the catch-all kind and have a tree set, and all others have none. Neither sees whether parsing was successful: a failed parse counts as covered (refuted).", "quantifier": "all documents and syntax trees, all parsers, all sequences of calls, all states", "why_tests_cant": "Any tree and any sequence of calls; failures of the parser do not occur in the specification as it is.", "anchors": ["Pseudocode.py: parse, connect_anodes_to_hnodes, check_emu_eqn_coverage, check_emu_alg_coverage", "Section.py: ensure_every_emu_alg_in_section_is_parsed", "HTML.py: each_descendant, each_descendant_named"]}
{"id": "C106", "title": "Every header is filed under the one algorithm of its name and species, and the report of headers lists them all in order", "statement": "A header can be finished exactly if its name does not begin with an angle bracket or is a text marked as a dfn, its parameters are known and no two of them are rest parameters; then the name is the bare text, unknown natures of the parameters of a function become 'a List of ECMAScript language values' for a rest parameter and 'an ECMAScript language value' otherwise (those of operations stay), and the description is the paragraphs joined by blanks, without one leading !OP, !FUNC or !CM and then without one leading It, This operation or The job, with the placeholders left in it spelled out. Whatever sequence of algorithms is asked for and headers made: it succeeds exactly if each header can be finished and no name stands for two species of operations or two species of functions; then the two tables have each name once, in the order in which the names come up, with the species asked for and all headers of that name in order; in particular each header is in the algorithm of its own name and species. All failures are assertions. After any such sequence the report is written exactly if the definitions under each header belong to it, and it lists the operations and then the functions, by name, each with its number of headers and the numbers of their definitions.", "quantifier": "all sequences of requests and headers, all names, species, parameters and paragraphs, all assignments of definitions", "why_tests_cant": "Any order of any number of headers; the specification has no clashes of names.", "anchors": ["algos.py: ensure_alg, Alg, AlgHeader.finish_initialization, write_header_info", "Section.py: AlgHeader_make"]}
