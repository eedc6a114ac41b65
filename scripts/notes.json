{
 "C01": {
  "note": "All syntax trees, all function registries (parameter X), all memories. Compiler with back-patching, VM as small-step machine, reference evaluator in Eval.v."
 },
 "C02": {
  "note": "Termination, single result on any stack, instruction pointer in bounds, no stack or bounds error."
 },
 "C03": {
  "note": "Stated on VM runs of the compiled operand and of the compiled whole."
 },
 "C04": {
  "note": "All expressions without assignment, and with plain-name assignments, for every library L of operations. Refuted for dotted assignments (alias write into the caller's object; self-containing result)."
 },
 "C05": {
  "note": "any history, arbitrary leftover buffers; parser enters as a function of the source"
 },
 "C06": {
  "note": "faithful caches are transparent; the compile step builds faithful, complete caches"
 },
 "C07": {
  "note": "proved for references that do not read $ or $root; stale-memo counterexamples otherwise"
 },
 "C08": {
  "note": "All sequences of set_local on a fresh scope; materialisation for object contexts."
 },
 "C09": {
  "note": "both representations refine a finite map; hash order arbitrary"
 },
 "C10": {
  "note": "Equality on the heap equals equality of contents; equivalence; by key; numbers by value. Dates and intervals are compared structurally in the model (Rc pointer equality in the source)."
 },
 "C11": {
  "note": "Read-back iff not blocked, blocked changes nothing, frame for tree-shaped values, exactly one cell changes under arbitrary sharing."
 },
 "C12": {
  "note": "All acyclic heaps with arbitrary sharing."
 },
 "C13": {
  "note": "All pairs that share only objects without null entries (for instance disjoint pairs); refuted without that condition."
 },
 "C14": {
  "note": "Content and frame for tree-shaped documents disjoint from the patch; leak and double-borrow panic as refutations."
 },
 "C15": {
  "note": "Equal content, fresh, independent in both directions."
 },
 "C16": {
  "note": "Round trip through serialize/deserialize for every finite plain value, any sharing, any table order, any reordering of object entries of the document. Refuted for dates (they come back as texts) and for values containing themselves (the serialiser does not end); a self-referring document is read as a value containing itself."
 },
 "C17": {
  "note": "Total, bounds, exact cover without templates, spelling with closed templates. Ordering of spans is refuted inside templates (closing brace); unterminated and nested templates are refuted separately."
 },
 "C18": {
  "note": "Operator trees over names and constants round trip from source text with no further hypothesis; the rest of the language (all but assignments) round trips given enough parentheses. pn/nt (reading and writing of numbers) are parameters.",
  "status": "proved"
 },
 "C19": {
  "note": "Both flavours, every token list; fuel shown irrelevant. The number reader is a parameter."
 },
 "C20": {
  "note": "List of literal tests proved from the cell's text to its boolean answer; arbitrary tests proved at the token level. and/or in cells have no precedence (refuted against the expression grammar).",
  "status": "proved"
 },
 "C21": {
  "note": "Numbers, all bracket combinations that open left and close right, and all reversed ones. Mixed pairs such as [1..5[ are accepted by the parser but behave as their left bracket's outside reading; refuted beside. Date intervals share the same comparison code and are not restated."
 },
 "C22": {
  "note": "Integer-valued ends in the i64 range. Fractional ends are truncated before iteration and visit numbers outside the interval; refuted beside."
 },
 "C23": {
  "note": "Byte-indexed inclusive slices, text and arrays, explicit and omitted ends."
 },
 "C24": {
  "note": "List semantics for all eight closure functions over per-element results, early stop, error order, and dualities without hypotheses on the body."
 },
 "C25": {
  "note": "min, max, mode unconditional; sum under exact additions and median under exact means (rust_decimal arithmetic is a parameter). median([]) underflows; refuted beside."
 },
 "C26": {
  "note": "Every first-hit table without collected columns, any rows, columns and input, traced or not, indexed or not. Hypotheses (in_order): library functions do not write to their arguments, the input is acyclic, the table's expressions assign nothing, do not panic, and only tested cells read $. Rows are judged by a separate specification (TableSpec) that evaluates each cell on its own.",
  "status": "proved"
 },
 "C27": {
  "note": "Collect policy: exactly the rows that hold and evaluate, in order. First-hit with collected columns: scan/collected in TableSpec say which rows contribute. Column fields: which are collected and under which path.",
  "status": "proved"
 },
 "C28": {
  "note": "The index built by the analyser gives the same tree as no index, under in_order. Without the hypothesis that only tested cells read $ the claim is refuted (C28_leftover_refuted).",
  "status": "proved"
 },
 "C29": {
  "note": "For every expression and every value, including dates and collections; both for any path and for cells as the table runs them.",
  "status": "proved"
 },
 "C30": {
  "note": "Over decimals of unbounded precision; the code's decimals have 28 digits, for which the if-direction is the one that matters and still holds.",
  "status": "proved"
 },
 "C31": {
  "note": "build_graph accepts exactly the contents whose edges name existing nodes; validate accepts exactly one input node and no directed cycle (petgraph's depth-first search modelled and proved to decide cyclicity).",
  "status": "proved"
 },
 "C32": {
  "note": "For arbitrary node handlers and switch outcomes. 'Remaining predecessors' are the predecessors in the pruned graph at the moment the node runs. C32_complete: without an output node and below the 1000-iteration limit every remaining connected node runs.",
  "status": "proved"
 },
 "C33": {
  "note": "Evaluation of any well-formed graph ends; the number of node executions is at most the number of nodes.",
  "status": "proved"
 },
 "C34": {
  "note": "The remaining graph is characterised exactly (pruned_to) by the edges struck out by the decided switches; the statements kept are those that hold under the hit policy. A node weakly connected to the input runs even if no chain leads to it from the input, so C34_run_reached assumes that only the input lacks incoming edges.",
  "status": "proved"
 },
 "C35": {
  "note": "merge_trees over predecessors' outputs, earliest declared edge last so that it wins; nothing allocated before changes. Hypothesis apart: two outputs share only objects without null entries (see C08 for why).",
  "status": "proved"
 },
 "C36": {
  "note": "Function, custom and table nodes enter as an arbitrary handler that does not call back into the engine.",
  "status": "proved"
 },
 "C37": {
  "note": "Call-by-call theorem for every node function; content theorem (loop = map, output path, pass-through) for every node that acts as a function on contents.",
  "status": "proved"
 },
 "C38": {
  "note": "For assignment-free expressions and independent keys. Refuted without independence (input mutated) and for acyclic output (entry reading $).",
  "status": "proved"
 },
 "C39": {
  "note": "The cached loader answers like the loader behind it in every history (C39_transparent, C39_no_history); failures are asked again; after success only imports can be asked again. 'At most once' is false of imports when a schema cannot be resolved (C39_asks_once_refuted)."
 },
 "C40": {
  "note": "For every history of add and remove."
 },
 "C41": {
  "note": "Content and policies come from the snapshot in every history. Nested decisions and schema dictionaries still come from the live loader: C41_nested_refuted shows the effect; C41_changes says exactly when later changes do not matter. Policy evaluation and diagnostics are parameters."
 },
 "C42": {
  "note": "Text, single expressions, concatenation, errors and acceptance for every template over bytes; white space is ASCII; the text of dates and intervals is a parameter. Refuted: the empty text gives null, an unclosed last expression is accepted, an expression with }} cannot be embedded, strings inside containers are not escaped."
 },
 "C43": {
  "note": "Types as trees (sharing and pointer shortcuts left out). Refuted in general: keys on one side only and null against nullable break the upper bound; arrays of unknown elements lose their values in a merge ([[1,\"a\"],[2]] is inferred as arrays of numbers); a named enumeration merged with itself changes its name; a null field does not satisfy a nullable field.",
  "status": "proved"
 },
 "C44": {
  "note": "Complete description of the texts that are read and of their value, for every text over bytes (white space is ASCII). Refuted for two terms in months or two in years: the last one wins; digits separated by spaces form one number."
 },
 "C45": {
  "note": "Also on cyclic results. Refuted: only the engine's own entries are removed.",
  "status": "proved"
 },
 "C46": {
  "note": "For decision tables, the only nodes whose work depends on tracing. Refuted when an output cell reads $ (C46_leftover_refuted).",
  "status": "proved"
 },
 "C47": {
  "note": "Blocks' own behaviour (select, commit), their read plans and the paths they write are parameters. Edges of the dependency graph, sinks and reachable inputs are not modelled. Refuted: reading a whole declared entity does not wait for fields computed for it (C47_entity_refuted).",
  "status": "proved"
 },
 "C48": {
  "note": "Exactly the import-reachable policies, each once; stops on cycles."
 },
 "C49": {
  "note": "By places in the schema. References inside the other keys of a reference stay (C49_none_left_refuted); a property called $dictionary makes it fail (C49_property_refuted)."
 },
 "C50": {
  "note": "Numbers in scientific notation and the float fallback are a parameter. Refuted: an object whose first key is serde_json's number token is read as a number; without arbitrary_precision fractions are cut when written; cyclic values have no document.",
  "status": "proved"
 },
 "C51": {
  "note": "Operators on two operands that evaluate in order: numeric and date comparisons, ==/!= complementarity, in/not in, exact arithmetic when the decimal library is exact on the operands, null/error results where undefined, concatenation, and/or/not, ??, ?:. == on containers is refuted as content equality (always false).",
  "status": "proved"
 },
 "C52": {
  "note": "assignment-free expressions; library functions assumed to depend on content only (plain_lib)"
 },
 "C53": {
  "note": "Text functions that need Unicode tables (upper, lower, trim), regular expressions, fuzzyMatch, random numbers and date are library parameters: the theorems say which arguments the library gets. Decimal places above 1000 are not distinguished. bool('') is true (C53_bool_empty_text_refuted). rand(-1) panics (C53_rand_negative_refuted)."
 },
 "C54": {
  "note": "For a top-level decision (no parent nodes); a nested decision's input node is shown with the parent's $nodes added.",
  "status": "proved"
 },
 "C56": {
  "note": "Calendar, zones and instants are those of chrono as documented (no leap seconds); a zone is any pair of functions. C56_quarter_refuted and C56_jump_refuted show the two cases where the code gives no date.",
  "status": "proved"
 },
 "C57": {
  "note": "Stated for two dates of one zone with a fixed offset; different zones and unit-less comparison are refuted.",
  "status": "proved"
 },
 "C58": {
  "note": "Fixed offset zones; 29 February plus years and ambiguous hours are refuted.",
  "status": "proved"
 },
 "C59": {
  "note": "Floating-point quotients of the source are exact fractions in the model. Whole months are characterised for days up to the 28th; sign change and the difference after adding hold for all days.",
  "status": "proved"
 },
 "C60": {
  "note": "Text formats of dates and formatting are parameters of the model.",
  "status": "proved"
 },
 "C61": {
  "note": "Errors at a path iff the place there is wrong, by an inductive relation of the places the data models declare (validator.rs, refs.rs, classify_roots); C61_complete_refuted: missing required properties and texts that are no dates are accepted.",
  "status": "proved"
 },
 "C62": {
  "note": "hydrate_references: places change only from an id to the last item with that id, and none is left at a declared field (names without dots). Refuted: the caller's nested objects are written, so the same input fails its next check; references of held entities stay ids.",
  "status": "proved"
 },
 "C63": {
  "note": "Proved for expressions without assignments and with closures nested less than 32 deep; each restriction is shown necessary by a refutation."
 },
 "C64": {
  "note": "Top-level properties; expressions without assignments and without $root. Dotted properties: see C64_cyclic_refuted for what can go wrong."
 },
 "C65": {
  "note": "Blocks with dotless, pairwise different properties that are no declared inputs, expressions without assignments and without $root, no circles; each restriction has a refuted companion or a C64 one. Decision-table blocks and blocks that run for every instance of an entity are not covered."
 },
 "C66": {
  "note": "Tables with an index (eight rows or more, without tracing) are covered when all their input cells evaluate; what happens otherwise is in the refuted companions. Properties with dots are not covered. arrange is the iteration order of a hash map and any permutation is allowed."
 },
 "C67": {
  "note": "Hints about decision tables: exactly which rows and empty columns are reported, and that removing them keeps what the table writes; four refutations. The claim 'never changes the outcome' holds only where rows differing elsewhere exclude each other."
 },
 "C68": {
  "note": "Full on expressions that can be written without a negation right of a tighter operator and without intervals that begin with a closing bracket; the hypotheses are shown to be needed by refutations."
 },
 "C69": {
  "note": "Strict mode. Assignments and deprecated functions are left out; every other kind of exclusion has a refutation."
 },
 "C70": {
  "note": "All parts proved for policies of expression, assertion and match blocks with undotted keys and for property names without dots; refutations show what fails outside."
 },
 "C71": {
  "note": "Exact edit, same meaning, round trip, keys and JSON texts proved for expressions without assignments; entities, fields and graph properties as targets are not modelled; six defects refuted with witnesses.",
  "status": "proved"
 },
 "C72": {
  "note": "Groups of both forms of schema characterised exactly; completeness; an evaluation depends only on what it reads; semantic soundness of variants and guards under kept_to_arms, refuted without it.",
  "status": "proved"
 },
 "C73": {
  "note": "C73_policies holds after every history; C73_graphs needs well behaved histories, and the three refutations show that each condition is needed. The analyses themselves are parameters.",
  "status": "proved"
 },
 "C74": {
  "note": "That the conditions and alternatives are written as texts that parse to the parts of the chain is a hypothesis (arms_of); the linter itself does not rewrite. Expressions that assign or use the whole context are excluded."
 },
 "C75": {
  "note": "C75_each is for results that are not objects or arrays and for instances without an owner; C75_owner is about one instance with an owner. What the block reads must not contain an instance: without that it is refuted (C75_siblings_refuted)."
 },
 "C76": {
  "note": "Proved for every tree without links, working directory and root: the listing is exact and without repetition, keys of names load what they name, tame keys stay below the root. Refuted for absolute keys and keys with .. and for the listing of an empty root."
 },
 "C77": {
  "note": "Fields, names, texts, fractions, periods and errors are proved for the table of older functions; the end of the year is refuted (C77_year_refuted). Formats of texts, humantime and the text of a date are parameters."
 },
 "C78": {
  "note": "Proved for every history over the workspace model of C73; what a rule writes is a parameter. Refuted for paths inside one another."
 },
 "C79": {
  "note": "proved for all documents, queries and limits, for every notion of letters; two wished-for properties are refuted (C79_spelled_refuted, C79_cells_refuted)",
  "status": "proved"
 },
 "C80": {
  "note": "Hints of repeated derivations over every unit; the parser and its spans are parameters. C80_apart assumes that what lies in a derivation has fewer operations.",
  "status": "proved"
 },
 "C81": {
  "note": "Validity is specified for the keywords the types are made of; C81_date_refuted, C81_cases_refuted and C81_null_refuted record where the unconditional claim fails.",
  "status": "proved"
 },
 "C82": {
  "note": "The TypeScript parser is external; the model starts at its syntax tree. C82_keyof_refuted, C82_rest_refuted and C82_union_refuted record where the unconditional claim fails.",
  "status": "proved"
 }
}