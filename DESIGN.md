# Design of the formal model of ecmaspeak-py

The source is read as text in `/repo` (pinned commit, Python, never run here).
The model is written in Rocq/Coq 8.16.1 under `rocq/theories/`, standard library only.

## Layout

For every area there are up to three files:

* `M_<Area>.v`: the model. Only definitions, each with a comment citing file and lines of
  `/repo`. No proofs.
* `L_<Area>.v`: the specification (small independent definitions in terms of observable
  effects) and the lemmas that prove it of the model.
* `Properties_<Area>.v`: only the property theorems (each closed by `exact lemma.`), each
  followed by `Print Assumptions`, with `Example`s showing that the hypotheses are met by
  non-trivial cases.

## Conventions of the model

* Python exceptions (`AssertionError`, `KeyError`, `TypeError`, user exceptions) are values:
  `res A := Ok a | Err e` (`M_Base.v`). A theorem saying "does not fail" says the result is `Ok`.
* Loops become structural recursion, or recursion on explicit fuel; running out of fuel is a
  separate error value `OutOfFuel`, never a normal-looking value. Termination theorems say that
  some fuel suffices, non-termination theorems say that every amount of fuel runs out.
* Text is `list N` (code points) or an abstract alphabet; graph vertices are numbered by `nat`; positions are `nat` or `Z` where the
  code uses -1.
* Python dicts with insertion order become association lists; sets whose iteration order is
  unspecified become lists in an arbitrary order that the theorems quantify over.
* Regular-expression matching, unicode data, file output, `print` to stderr and pickling are not
  modelled. Where control flow depends on a regex match, the match is an arbitrary function
  (a `Section` variable, closed at the end of the section), so theorems hold for any behaviour.

## Trusted base

* The Coq kernel (8.16.1) and its `vm_compute`.
* The axioms listed by `Print Assumptions` beneath each theorem (the aim is
  "Closed under the global context" everywhere).
* `vcheck` lists some axioms of the standard library (`Coq.ssr.ssrunder`) as present in loaded files; no theorem uses them.
* The reading of the Python code into Gallina: the code is not executed here; every definition cites
  the lines it models, and simplifications are stated next to it and in the table below.

## Per-property plan

| id | modelled | method |
|----|----------|--------|
| C01 | newline table and bisection of `convert_posn_to_linecol`, its asserts | invariant of the bisection; spec = counting newlines |
| C02 | sort + splice loop of `write_spec_with_replacements` | spec = per-character membership in spans; induction over sorted list |
| C03 | message dictionary + final printing loop | induction over history and over lines |
| C04 | five sequential `str.replace` | single-pass decoder as spec; lemma on non-interference |
| C05 | dict pair state machine | refinement to history function |
| C06 | `tokenize` loop over abstract match-length functions | induction on remaining input; non-termination for every fuel |
| C07 | `scan_section` loop over abstract matchers | inductive "first-match partition" relation |
| C08 | tagged tuples and Python tuple comparison | case analysis/induction |
| C09-C10 | path-based SCC search with stacks S and P | DFS invariants, induction on fuel |
| C11-C12 | prereqs, cycle flags, level computation | from C09/C10 |
| C13 | global list as explicit state | concrete history |
| C14-C17 | worklist construction | worklist invariants; breadth-first order for C17 |
| C18 | indentation part of the pseudocode tokenizer | invariant depth = column/2 |
| C19 | open-element stack and `add_child`/`close_open_child` over an event stream | stack invariant |
| C20 | recursive lookup | induction on tree |
| C21-C24 | member types, split, subtype test, union | values = sets over a tree hierarchy |
| C25-C26, C41 | Env as finite map to types; `envs_or`, `envs_and`, `with_type_test`, `with_expr_type_narrowed`; `tc_expr` is an input | store conformance as spec; from C21-C23 |
| C27, C31, C42 | enumerators, expansion of arguments | induction, NoDup + membership |
| C28-C30 | Earley item sets with live worklists; constraints and the source of terminals are arbitrary functions (`LexicalTIP` is modelled here, `SyntacticTIP` under C48-C51) | derivation relation as spec; every item valid, every set closed, both as invariants; termination from finiteness of derivations |
| C32 | greedy matcher | subsequence relation as spec; counterexample |
| C33 | worklist reachability | reachability relation as spec |
| C34-C36, C46-C47 | interpreter for an abstract syntax with the constructs that have control flow, variables or calls; the others are arbitrary functions of the argument values and Lists; frames, contours, return flag, missing-reference exception | histories as spec of scoping; big-step semantics with return as a jump, sound and complete; monotone fuel |
| C37, C44 | numbering recursion (strings), classification of children | injectivity by induction on tree |
| C38-C39, C43, C45 | rank recursion with memo, dict merge, coalescing, defaults | invariants over the list of facts |
| C40 | parse tree with context (parent or covering node), strictness of each kind of node, directive prologues | ancestor relation as spec |
| C48-C51 | `SyntacticTIP` as a state (elements, tokens, cursor, bounds); the lexical parser is an arbitrary function from goal and position to an element | invariant over all reachable states; decision spec in terms of the state after the call; counterexamples by computation |
| C52 | `parse()`: the Earley model run with the token source model as source of terminals | trace of questions and answers; tokens and gaps read earlier do not change; completeness by replaying the answers; termination from a bound on the number of tokens |
| C53 | `simplify_grammar`: expansion of grammatical parameters, guards, arguments and optional symbols; names as text | derivations in both grammars as inductive relations over an arbitrary reading of terminals and constraints; invariant of the productions added so far; names determine nonterminal and signs |
| C54-C59 | nodes of parse trees as a tree with ids and extents; choice of the definition of an operation; early error traversal over an arbitrary state; parent links as a dict; memo of covered nodes | leaves of a tree; chain rule as a relation; effective tree relative to the final covers; ancestors as a path |
| C60 | coverage analysis per operation over a grammar of right-hand sides with optional items; queue of nonterminals with fuel | nonterminals reached as a relation; parse trees of a grammar as an inductive relation; the choice of C55 |
| C61 | matches, keys and messages for a use production, over the matcher of C32 | matching as a relation between indices; strictly increasing function for silence |
| C62 | analysis of conditions and commands as a writer of errors and return environments; operations with several definitions; loops with at most five passes | an evaluation relation on stores (leaf of the hierarchy per variable), loops as an inductive iteration, invocations by depth of nesting; going wrong is an outcome |
| C63 | headers' types and summaries as dictionaries, passes over a cluster with at most five changes, the call graph built from callee names (M_Graph.v for the levels) | replay of change messages; agreement of the reports with the analysis at the final state; dependency relation of an arbitrary per-definition analysis |
| C64 | the focus map as an association list from names to lists of nodes or absence; run-time lookup with its tables; static check over productions as written | inductive occurrences of a symbol among children; relation between productions with symbols kept, written as present or left out, and nodes |
| C65 | filters over children, preorder list and ancestors | `below`, ancestors relation, unique split of the children |
| C66 | regular expressions compiled from their Python source and matched by backtracking; the metagrammar as an association list; recursive descent with the indentation threaded through (M_Meta.v) | abstract grammars with a writer `w_block`/`w_line`, well-formedness of names and terminals, relation `is_prod` between what is returned and the abstract production |
| C67 | the same, with the expectations logged | regular languages `word_of` as an inductive relation; odd indentation, running over, fullness stated on the text |
| C68 | M_Exec.v | for each construct an equivalence with evaluations of its parts (`holds`, `evals`), chained in order: `in_seq`, `eval_seq` |
| C69 | M_Exec.v | equivalences for each kind of rule; `tested` keeps the list of truth values, whose number of `true` is the number of errors |
| C70 | schemas by number in order of creation, the registry as an association list with string keys, generators as lists (M_Records.v) | parent function and inductive `under`; the table written down again; `above` for names; histories as an inductive relation |
| C71 | the same | `field_decl`, `method_decl`, `method_defn` relations; `nearest` and topmost declarations by `under` |
| C72 | tree of elements with attributes and text; regular expressions as searches; messages as data; `str.lower` and non-ASCII word characters as parameters (M_Ids.v) | occurrences as a flat list; first/last occurrence by splitting; inductive `found_in` for the search |
| C73 | each regular expression as a matcher at a position, finditer as a loop (M_Layout.v) | `has`, `all_in`, `blank_line`, `blank_lines` on positions of the text |
| C74 | tree of elements with positions; `check_lines` with ranges of line numbers and fuel (M_Indent.v) | `outline` as a local condition on indentations; inductive `laid` over the nesting; `placed`, `line_at` on positions |
| C75 | productions with node numbers, sections, `info_for_nt_` as a dictionary of dictionaries, two passes with messages and exceptions (M_Defs.v) | `sites` (productions in document order), `in_arena`, `meant`, `full`, `reported` as relations on the document; no dictionaries |
| C76 | tree of elements with the right-hand sides of uses; traversals with flags for nested sections and algorithms, messages and exceptions (M_Refs.v) | `section_of`, `own_uses` (pruned at algorithms), `inner_grammar`, `adj`, `descent`, `clash`, `before`: relations on the tree and on neighbours |
| C77 | list of emu-prodref elements against `info_for_nt_`, list of names so far, sort by position (M_Refs.v) | `in_main`, splits of the list of elements; no dictionaries |
| C78 | the scans and matches of three regular expressions, `str.find`, lookups by part (M_Refs.v) | `scan`, `form`, `splits`, `bare`, `part`, `meant`, `says`: relations on texts and productions |
| C79 | values as an inductive type; dataclass equality with the fields Python compares; descriptions with exceptions (M_Values.v) | `same`, `means`: inductive relations on values and descriptions; `blur`, `plain`, `sensible` say which values and questions |
| C80 | Lists of values, counting, the generator over property definitions (M_Values.v) | `two_of`, `repeated`: positions of a list; `lists`, `of_form` |
| C81 | texts as lists of code points, the match of a regular expression, checks of ranges (M_Values.v) | `ascii`, `hex_upper`, `name_text`, `parts`, `NoDup`, literal numbers |
| C82 | Python ints as Z; finite doubles as multiples of 2^-1074, rounded to nearest, ties to even (M_Mathnum.v) | rationals (`qval`), `double`, `notation`, the definition of modulo in the specification |
| C83 | `unicodedata.category` as a parameter; expanded and written productions; recursion with fuel (M_LexChars.v) | `derives`, `stands_for`, `ID_Start`/`ID_Continue` as in UAX 31 (ranges), `notation` |
| C84 | tree of nodes with positions; expressions of content models as an AST with a reader and derivatives; `re.fullmatch` of attribute values as a parameter (M_Validate.v) | `complaint` (one constructor for each message), `reached`, `w_alt` (how expressions are written), `lang`, `collapsed`, `listing` |
| C85 | text and line positions; `data` = text, list of texts or mapping in order; fuel = number of lines (proved sufficient) (M_Test262.v) | `block`/`seq_entries`/`map_entries`/`entry` over lines (indentation, content), `text_of`, `listed`, `acceptable`, `verdict`, `sole` |
| C86 | `anode` trees (production sides, source range, children); visits with ancestors; dictionary of names (M_Style.v) | paths (`at_path`, `before`, `chain`), `occurs`, `in_defvar`, `head_defines`, `holds`; `shortly_before` for the marks |
| C87 | `each_if_arm` with fuel = depth (proved sufficient); commonprefix = common prefix of least and greatest text (M_Style.v) | `open_arms`/`tail_arms`/`closed_arms` after the grammar, `phrase`, `if_fault`, `reports` = messages in reading order of paths |
| C88 | kinds of terms as booleans for M and S; right-hand sides of {VAL_DESC} and places of {VALUE_DESCRIPTION} copied from the grammar (characters beyond ASCII as bytes) (M_Style.v); the walk over the elements of the document with a syntax tree is left out | `multi_term`/`single_term`, `out_of_order`, `wanted`, `disjunction`, `desc_fault` |
| C89 | `ctree` (identity, right-hand side, source text, invoked names, tree of the element referred to, children); searches with fuel = number of operations + 2 (proved sufficient), Python's recursion limit not modelled; the order of the second kind of complaint is alphabetical instead of that of a set (M_Deps.v) | `invokes`, `calls`, `reaches`, `ss_reaches`, `leads_to_runtime`/`marked_runtime` as inductive relations; `listing`; `subseq` of the nodes in document order |
| C90 | one function per node with the form of its production (`form_of`) computed first; setting an attribute = listing the visit with its annotation (M_Invoke.v) | `built` (table of the productions of the grammar), `invocation`, `called`, `args_in` |
| C91 | operations = name, parameters (name, punct), invocations; messages as values (M_Invoke.v) | `supplied`, `deserves` |
| C92 | of headers only the source of return_nature_node; the regular expression as prefix, suffix and a middle without line ends (M_Invoke.v) | `takes_no_the`, `in_parens`, `says_the`, `about_op` |
| C93 | the regular expressions as functions: a scan from left to right where no choice is left open, otherwise the first split in the order in which the lazy or greedy repetition tries them; \w beyond ASCII is a parameter (M_PropPath.v) | `base`, `comp`, `render`, `splits`, `short`, `field_ok` |
| C94 | trees of sections with kind, title, aoid and headers; the walk gives paths and parents; the rewritings of titles as scans from left to right; str.lower is a parameter (M_Order.v) | `sec_at`, `relation_clause`, `aoid_fault`, `odd_header`, `property_kind`, `next_before`, `odd_child`, `earlier`, `write_title`, `key_title` |
| C95 | trees of elements with attributes and inner text; the loop over rows as a fold with the header and the rows so far; the regular expressions of quasi_ecmarkdown as scans; int is a parameter (M_Tables.v) | `has_caption`, `row_in`, `header_row`, `data_row`, `contains`, `write_code` |
| C96 | headers as records; the loops over headers as folds in the monad of output lines and exceptions, so that lines written before a failure are kept (M_Consist.v) | `sound`, `phrase`, `is_fault`, `comes_before`, `said`, `by_name` |
| C97 | regular expressions as functions on texts, searches as the first suffix that matches, listings of parameters as a fold with the flag for optional ones (M_Titles.v) | `item`, `written`, `optional`, `lower_word`, `has_symbol`, `has_params`, `least`, `says` |
| C98 | the regular expression as an ordered list of alternatives made of literals, classes and repetitions; lines as a fold over the state of left-hand sides and productions (M_PGrammar.v) | `shape`, `first_piece`, `cut`, `reads`, `lines_of`, `prods_of`, `defined`, `uncut` |
| C99 | nodes as trees with ranges; the regular expressions as scanners; yielded references as the messages of the output monad (M_Steps.v) | `down`, `ordered`, `route`, `step_word`, `positions`, `forms`, `fits_form`, `ids_of`, `line_of`, `nearest`, `id_line`, `target`, `gives`, `fails`, `report` |
| C100 | rules with counts, `fullmatch` and `expand` as parameters, warnings as messages of the output monad (M_Preamble.v) | `cuts`, `chunks_in`, `lines_in`, `rule_of`, `did`, `chain`, `says`, `para`, `paras`, `values`, `kind_fits`, `name_lines`, `stated`, `settled`, `mentioned`, `strange`, `var_lines` |
| C101 | rows of cells, yielded rows as messages of the output monad, facts as values (M_Wki.v) | `says_phrase`, `good_entry`, `cells_of`, `row_of`, `fresh`, `sound`, `unmarked`, `refs_in`, `base_of`, `complaint`, `said`, `prop_title`, `declared`, `listing` |
| C102 | titles as texts, pipelines as lists of stages, re.sub with a matcher per pattern, sets as lists (M_SecId.v) | `rewritten`, `replaced`, `swapped` and the relations `m_...` of matches, `words_of`, `listed`, `old_name`, `named_params`, `dotted`, `lowered_but_last`, `reach`, `route`, `sdo_middle`, `accepted`, `complaint` |
| C103 | tables as caption, optional header and rows; the regular expressions for captions and names as functions; the registry of schemas is that of C70; the two parsers are parameters (M_RecTables.v) | `fields_of_schema`, `methods_of_schema`, `row_declares`, `row_method`, `declares`, `own`, `fits`, `declares_field`, `declares_method`, `kind_of`, `slots_of`, `interface`, `cells_in`, `checked` |
| C104 | the regular expressions of get_pdn as functions on texts, tried in order; upper case of a character is a parameter; paths of properties as in C93; facts as left side, verb and right side, the recorded ones as output; the matched groups of a preamble sentence are given (M_Facts.v) | `form`, `cut`, `capital`, `path_name`, `named_for`, `side_for`, `about`, `stands_for`, `kept`, `value_of`, `side_of`, `recorded`, `agrees`, `expects_method`, `name_said`, `what_said` |
| C105 | elements and syntax nodes as trees with identities; the state is the trees set, the connections and the calls of the parser; the parser, annotate_invocations and the naming of the section are parameters (M_Parsed.v) | `inside`, `doc_order`, `tree_order`, `belongs`, `connected`, `goal_for`, `outcome`, `handled`, `algs`, `template`, `defines`, `done` |
| C106 | the two tables as association lists in order of insertion; a header is a record with an identity before and after it is finished; the definitions under a header are a parameter (M_AlgReg.v) | `named_as`, `natured`, `headless`, `described`, `finished`, `mentions`, `coherent`, `table`, `own`, `in_order`, `listing` |

The table is extended as the model grows; the status of each property is in `MANIFEST.json`.
