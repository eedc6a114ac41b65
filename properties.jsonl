{"id": "C01", "title": "Compiled expressions mean what the syntax tree means", "statement": "Whenever the compiler accepts an expression, running the produced code yields exactly the value (or the error) that evaluating the syntax tree directly, operator by operator, would give, with the same effects on the data.", "quantifier": "every syntax tree, every context, every stack and loop nesting the code is embedded in", "why_tests_cant": "expressions are unbounded trees; a wrong jump offset or stack slip shows only for particular nestings", "anchors": ["core/expression/src/compiler/compiler.rs: CompilerInner::compile_node, emit_loop, emit_cond, replace", "core/expression/src/vm/vm.rs: VMInner::run"]}
{"id": "C02", "title": "Every compiled expression terminates and leaves exactly one result", "statement": "Evaluating any compiled expression stops after finitely many VM steps, never jumps outside its code, never pops an empty stack, and leaves exactly one value above what was there before.", "quantifier": "every compiled expression and every context", "why_tests_cant": "termination and absence of stack underflow are statements about all executions", "anchors": ["core/expression/src/compiler/compiler.rs: compile_node", "core/expression/src/vm/vm.rs: VMInner::run"]}
{"id": "C03", "title": "Short-circuit operators do not evaluate the skipped operand", "statement": "`false and e`, `true or e`, `x ?? e` with x not null and the untaken branch of `c ? a : b` never evaluate the skipped part: its errors and effects are unobservable, whatever it is.", "quantifier": "every left value, every skipped sub-expression, every context", "why_tests_cant": "the skipped operand is an arbitrary expression, including ones that fail", "anchors": ["core/expression/src/compiler/compiler.rs: Node::Binary Logical, Node::Conditional", "core/expression/src/vm/vm.rs: Opcode::Jump"]}
{"id": "C04", "title": "Evaluating an expression does not change the caller's data", "statement": "Evaluating an expression that contains no assignment leaves every object and array reachable from the context unchanged. (With assignments this fails: aliasing lets an assignment write into the caller's object, and can even build a cyclic value.)", "quantifier": "every expression, every context, every shared object", "why_tests_cant": "aliasing through shared references is only visible for particular combinations of reads and writes", "anchors": ["core/expression/src/vm/vm.rs: Opcode::AssignedObjectStep", "core/types/src/variable/mod.rs: dot_insert, dot_insert_detached"]}
{"id": "C05", "title": "A reused isolate behaves like a fresh one", "statement": "After any sequence of evaluations (successful or failed) on one isolate, evaluating an expression in a given environment gives the same outcome as on a new isolate with that environment.", "quantifier": "every history of evaluations, every expression", "why_tests_cant": "histories are unbounded and failures leave the VM stack in arbitrary states", "anchors": ["core/expression/src/vm/vm.rs: VM::run", "core/expression/src/isolate.rs: Isolate::run_standard, set_environment"]}
{"id": "C06", "title": "The opcode cache is transparent", "statement": "Attaching a compiled-expression cache that was built by compiling the same sources never changes the outcome of run_standard or run_unary.", "quantifier": "every source string, every cache content built by the compile step, every environment", "why_tests_cant": "depends on all sources and all cache contents", "anchors": ["core/expression/src/isolate.rs: run_standard, run_unary", "core/engine/src/model/decision_content.rs: compile"]}
{"id": "C07", "title": "Reference memoisation is invisible between environment changes", "statement": "Setting the reference `$` to an expression and then running a unary test gives the same outcome whether or not the reference was already computed earlier in the same environment, as long as the reference expression does not read `$`.", "quantifier": "every history of set_reference / run_unary / set_environment calls", "why_tests_cant": "a statement about all call histories", "anchors": ["core/expression/src/isolate.rs: set_reference, set_environment"]}
{"id": "C08", "title": "Locals shadow the context and the materialised scope agrees with lookup", "statement": "Looking a name up in a scope returns the most recently set local of that name, otherwise the context's property; and when the context is an object, the materialised object has at every key exactly what lookup returns.", "quantifier": "every scope, every sequence of set_local calls, every name", "why_tests_cant": "all histories of locals and all names", "anchors": ["core/expression/src/scope.rs: Scope::get_str, set_local, materialize"]}
{"id": "C09", "title": "VariableMap is a finite map in both representations", "statement": "Any sequence of insert/remove/entry/clear operations on an object's map observes the same results as an abstract finite map, including across the switch from the small vector to the hash representation, and no key is ever stored twice.", "quantifier": "every operation sequence and every size", "why_tests_cant": "sequences are unbounded and the representation changes at 32 entries", "anchors": ["core/types/src/variable/map.rs: VariableMap"]}
{"id": "C10", "title": "Structural equality of values is an equivalence and ignores representation", "statement": "Equality on values is reflexive, symmetric and transitive, does not depend on key insertion order or on small/large map representation, and equates numbers by value not by scale.", "quantifier": "all pairs and triples of finite values", "why_tests_cant": "ranges over all value trees", "anchors": ["core/types/src/variable/mod.rs: PartialEq for Variable", "core/types/src/variable/map.rs: PartialEq for VariableMap"]}
{"id": "C11", "title": "Dotted-path write then read", "statement": "If dot_insert(path, v) succeeds, dot(path) then returns v, and every path that is neither a prefix nor an extension of it (and not reached through sharing) reads as before; it fails exactly when a non-final path segment holds a non-object.", "quantifier": "every value, every path, every inserted value", "why_tests_cant": "paths and trees are unbounded", "anchors": ["core/types/src/variable/mod.rs: dot, dot_insert"]}
{"id": "C12", "title": "Detached dotted insert leaves the original untouched", "statement": "dot_insert_detached returns a value with the path set while every object that existed before the call keeps its content.", "quantifier": "every heap of shared objects, every path and value", "why_tests_cant": "non-interference over all aliasing patterns", "anchors": ["core/types/src/variable/mod.rs: dot_head_detach, dot_insert_detached"]}
{"id": "C13", "title": "merge_clone is a pure JSON-merge", "statement": "merge_clone(a, b) modifies no object reachable from either argument and its result is the recursive merge: object keys merged recursively, null in the patch removes the key, otherwise the patch replaces.", "quantifier": "every pair of values with arbitrary sharing", "why_tests_cant": "trees and sharing are unbounded", "anchors": ["core/types/src/variable/mod.rs: merge_clone, merge_variables"]}
{"id": "C14", "title": "In-place merge can leak into shared data", "statement": "merge(a, b) computes the same merged content as merge_clone but writes into a's nested objects; any other holder of those nested objects sees the change.", "quantifier": "every pair of values; refuted non-interference has a concrete witness", "why_tests_cant": "an aliasing property over all heaps", "anchors": ["core/types/src/variable/mod.rs: merge", "core/engine/src/decision_graph/walker.rs: ending_variables"]}
{"id": "C15", "title": "deep_clone is equal and independent", "statement": "deep_clone returns a value structurally equal to the original that shares no object or array with anything existing before, and changes nothing.", "quantifier": "every finite value", "why_tests_cant": "trees and aliasing unbounded", "anchors": ["core/types/src/variable/mod.rs: deep_clone, depth_clone"]}
{"id": "C16", "title": "Reference-compressed serialization round-trips", "statement": "Serialising a value with back-references and deserialising it yields a structurally equal value, including strings that start with '@'.", "quantifier": "every finite value with arbitrary sharing", "why_tests_cant": "ranges over all values, all sharing patterns and all strings", "anchors": ["core/types/src/variable/ref_ser.rs", "core/types/src/variable/ref_deser.rs"]}
{"id": "C17", "title": "Lexing is total, in-bounds and loses nothing", "statement": "For every input the lexer terminates with a token list or an error; every token's span lies inside the source, spans are ordered, and tokens other than template literals carry exactly the text they cover (quotes excepted), with only whitespace between them.", "quantifier": "every source string", "why_tests_cant": "all strings", "anchors": ["core/expression/src/lexer/lexer.rs", "core/expression/src/lexer/cursor.rs"]}
{"id": "C18", "title": "Operator precedence and associativity", "statement": "Printing an operator tree with the minimal parentheses dictated by the documented precedence table and parsing it back gives the same tree: binary operators group by precedence, `^` to the right, all others to the left.", "quantifier": "every operator tree, of any depth and any mix of operators", "why_tests_cant": "unbounded expression trees", "anchors": ["core/expression/src/parser/standard.rs: binary_expression", "core/expression/src/parser/constants.rs"]}
{"id": "C19", "title": "Parsing always terminates", "statement": "The expression parser stops on every token list, with a tree (possibly containing error nodes) and never reads past the end.", "quantifier": "every token list", "why_tests_cant": "all inputs including malformed ones", "anchors": ["core/expression/src/parser/parser.rs", "core/expression/src/parser/standard.rs", "core/expression/src/parser/unary.rs"]}
{"id": "C20", "title": "Unary-test cells mean `$ op value`", "statement": "A cell list `a, b, c` is true exactly when one of the tests holds for `$`; a leading comparison applies to `$`, an interval/array tests membership, a literal tests equality.", "quantifier": "every list of tests and every `$`", "why_tests_cant": "lists are unbounded and mix operators", "anchors": ["core/expression/src/parser/unary.rs"]}
{"id": "C21", "title": "Interval membership follows the brackets", "statement": "`x in [a..b]`, `(a..b)`, `[a..b)`, `(a..b]` hold exactly when x satisfies the two bound comparisons; `]a..b[` style intervals hold exactly outside; `not in` is the complement.", "quantifier": "every number x, a, b and every bracket combination", "why_tests_cant": "dense numeric domain", "anchors": ["core/expression/src/vm/interval.rs: includes"]}
{"id": "C22", "title": "Iterating an interval visits exactly the integers it contains", "statement": "Looping over a numeric interval with integer bounds visits, in increasing order and once each, exactly the integers that are `in` the interval.", "quantifier": "all integer bounds and bracket kinds", "why_tests_cant": "unbounded ranges", "anchors": ["core/expression/src/vm/interval.rs: to_array, includes"]}
{"id": "C23", "title": "String slices are inclusive sub-strings", "statement": "`s[a:b]` returns exactly bytes a..=b when both ends are in range on character boundaries, and errors otherwise; omitted ends default to 0 and len-1.", "quantifier": "all strings and all bounds", "why_tests_cant": "all strings and numeric bounds", "anchors": ["core/expression/src/vm/vm.rs: Opcode::Slice", "core/expression/src/compiler/compiler.rs: Node::Slice"]}
{"id": "C24", "title": "Closure functions agree with list functions", "statement": "all/some/none/one/count/filter/map/flatMap over an array agree with the list functions over the per-element results, evaluate left to right, stop early exactly where documented, and satisfy the expected dualities (none = not some, one = count is 1).", "quantifier": "every array length and every closure body", "why_tests_cant": "unbounded arrays and arbitrary bodies", "anchors": ["core/expression/src/compiler/compiler.rs: FunctionKind::Closure", "core/expression/src/vm/vm.rs: Begin/End/IncrementIt"]}
{"id": "C25", "title": "Aggregates do not depend on element order and stay in range", "statement": "min, max, sum, median over numeric arrays are invariant under permutation; min/max/median lie within the array's range; min and max are elements.", "quantifier": "every numeric array and permutation", "why_tests_cant": "all permutations and lengths", "anchors": ["core/expression/src/functions/internal.rs: min, max, sum, median"]}
{"id": "C26", "title": "First hit policy returns the first matching row", "statement": "A first-hit decision table returns the output of the lowest-numbered row all of whose input cells hold (blank cells always hold) and whose outputs evaluate, and no output when there is none.", "quantifier": "every table, every context", "why_tests_cant": "tables are unbounded; overlaps are arbitrary", "anchors": ["core/engine/src/nodes/decision_table/mod.rs: handle_first_hit, row_matches"]}
{"id": "C27", "title": "Collect policy returns every matching row in order", "statement": "A collect decision table returns the outputs of exactly the matching rows in table order.", "quantifier": "every table, every context", "why_tests_cant": "unbounded tables", "anchors": ["core/engine/src/nodes/decision_table/mod.rs: handle_collect, handle_first_hit_collect"]}
{"id": "C28", "title": "The rule index never changes a table's result", "statement": "Evaluating a table through the pre-built column index selects the same rows, in the same order, as testing every row, when cell outcomes do not depend on a leftover `$`.", "quantifier": "every table, every context", "why_tests_cant": "the index prunes by value; soundness is for every cell expression and every input value", "anchors": ["core/engine/src/nodes/decision_table/index.rs", "core/engine/src/nodes/decision_table/mod.rs: candidate_rows", "core/expression/src/intellisense/discriminant.rs"]}
{"id": "C29", "title": "Cell discriminants are sound", "statement": "If the cell analyser classifies a unary cell as a finite set of literals or a numeric cover, then the cell evaluates to true on a value exactly when the value is in that set.", "quantifier": "every recognised cell expression and every `$` value", "why_tests_cant": "all cells and values", "anchors": ["core/expression/src/intellisense/discriminant.rs: ArmTest::from_node"]}
{"id": "C30", "title": "Number covers: totality check is exact", "statement": "The exhaustiveness check over numeric bounds reports total exactly when every number is covered.", "quantifier": "every list of numeric ranges and points", "why_tests_cant": "dense domain; off-by-one at shared endpoints is measure-zero for random tests", "anchors": ["core/expression/src/intellisense/discriminant.rs: NumberCover"]}
{"id": "C31", "title": "Graph validation accepts exactly well-formed acyclic graphs", "statement": "A decision graph passes validation exactly when it has one input node and no directed cycle; edges naming unknown nodes are rejected at build time.", "quantifier": "every graph", "why_tests_cant": "all graphs", "anchors": ["core/engine/src/decision_graph/graph.rs: try_new, validate"]}
{"id": "C32", "title": "Nodes run in dependency order, at most once", "statement": "During an evaluation every node handler runs at most once and only after all its remaining predecessors have produced output.", "quantifier": "every acyclic graph, every node behaviour", "why_tests_cant": "all graphs and outcomes", "anchors": ["core/engine/src/decision_graph/walker.rs: GraphWalker::next"]}
{"id": "C33", "title": "Graph evaluation terminates", "statement": "Walking any graph stops after finitely many steps.", "quantifier": "every graph and every switch outcome", "why_tests_cant": "all graphs", "anchors": ["core/engine/src/decision_graph/walker.rs"]}
{"id": "C34", "title": "Switch nodes prune exactly the unselected branches", "statement": "Edges leaving a switch from a branch that did not match are removed, a node runs only if some chain of remaining edges reaches it, first-hit keeps the first true branch only and collect all true branches.", "quantifier": "every graph and every set of branch outcomes", "why_tests_cant": "unbounded graph shapes", "anchors": ["core/engine/src/decision_graph/walker.rs: remove_edge_recursive, get_statements"]}
{"id": "C35", "title": "A node's input is the merge of its predecessors' outputs", "statement": "The input of a node with predecessors is the merge of their outputs with earlier-declared edges winning; and computing it does not modify any predecessor's output.", "quantifier": "every graph", "why_tests_cant": "all fan-ins", "anchors": ["core/engine/src/decision_graph/walker.rs: merge_node_data, incoming_node_data"]}
{"id": "C36", "title": "Recursive decisions hit the depth limit instead of diverging", "statement": "For every set of decisions, including self- and mutually recursive ones, evaluation stops, with a depth-limit error on each path longer than max_depth.", "quantifier": "every family of decision documents", "why_tests_cant": "recursion through documents is unbounded", "anchors": ["core/engine/src/decision_graph/graph.rs: evaluate", "core/engine/src/nodes/decision/mod.rs"]}
{"id": "C37", "title": "Loop execution produces one output per element in order", "statement": "A node in loop mode runs once per input element, in order, output i is computed from element i only, and pass-through merges each output over its element.", "quantifier": "every input array", "why_tests_cant": "unbounded arrays", "anchors": ["core/engine/src/nodes/transform_attributes.rs"]}
{"id": "C38", "title": "Expression nodes evaluate keys in order and later keys see earlier ones through $", "statement": "Entries are evaluated top to bottom, entry k sees exactly the results of entries before k under `$`, blank entries are skipped and the first error aborts.", "quantifier": "every entry list", "why_tests_cant": "unbounded lists", "anchors": ["core/engine/src/nodes/expression/mod.rs", "core/expression/src/isolate.rs: insert_dollar"]}
{"id": "C39", "title": "Loader caching is transparent for an immutable store", "statement": "A cached loader returns what the underlying loader returns, asks it at most once per key after a success, and keeps failing keys uncached.", "quantifier": "every sequence of load calls", "why_tests_cant": "all histories", "anchors": ["core/engine/src/loader/cached.rs"]}
{"id": "C40", "title": "The memory loader is a map", "statement": "After any sequence of add/remove calls, load(key) returns the content of the last add for that key not followed by a remove.", "quantifier": "every operation sequence", "why_tests_cant": "all histories", "anchors": ["core/engine/src/loader/memory.rs"]}
{"id": "C41", "title": "A compiled engine answers from its snapshot", "statement": "After engine.compile, evaluating a key in the compiled set uses the content at compile time regardless of later loader changes; keys outside it go to the loader; changing the loader resets the snapshot.", "quantifier": "every history of compile, loader updates and evaluations", "why_tests_cant": "all histories", "anchors": ["core/engine/src/engine.rs: compile, evaluate_with_opts"]}
{"id": "C42", "title": "Template rendering", "statement": "Text without delimiters renders to itself; a template that is exactly one expression renders to that expression's value unchanged; otherwise the result is the concatenation of text parts and stringified expression values in order.", "quantifier": "every template and context", "why_tests_cant": "all templates", "anchors": ["core/template/src/lexer.rs", "core/template/src/parser.rs", "core/template/src/interpreter.rs"]}
{"id": "C43", "title": "Types: satisfying is reflexive, merge is a least upper bound, inference fits the document", "statement": "Every type satisfies itself; any constraint satisfied by two types is satisfied by their merge; two types satisfy their merge when neither has a key or a null that the other lacks at the same place; values of a type remain values of a merge, in either order; a type satisfied by a more specific one has its values; the type inferred for a JSON document describes that document and satisfies every type the document has; the types of keys, elements and widened literals fit the values. Exceptions are listed as refutations.", "quantifier": "all types", "why_tests_cant": "types are unbounded trees", "anchors": ["core/types/src/variable_type/util.rs: satisfies, merge, widen, get, iterator", "core/types/src/variable_type/conv.rs: From<Value>"]}
{"id": "C44", "title": "Duration strings add up", "statement": "A duration string of several terms denotes the sum of its terms. (Refuted for months, quarters and years: the last term of the kind wins.)", "quantifier": "every duration string", "why_tests_cant": "all strings", "anchors": ["core/expression/src/vm/date/duration_parser.rs"]}
{"id": "C45", "title": "Internal bookkeeping never leaks", "statement": "The final result contains no `$nodes` key introduced by the engine. (Cleaning happens in place and removes the user's own `$nodes` key too.)", "quantifier": "every graph and result", "why_tests_cant": "all results", "anchors": ["core/engine/src/decision_graph/cleaner.rs"]}
{"id": "C46", "title": "Tracing does not change the result", "statement": "Evaluating with tracing enabled returns the same result as without. (Refuted for decision tables with output cells reading `$`.)", "quantifier": "every graph, table and context", "why_tests_cant": "all tables and contexts", "anchors": ["core/engine/src/nodes/decision_table/mod.rs: handle_first_hit"]}
{"id": "C47", "title": "Policy blocks run on demand, at most once, and after what feeds them", "statement": "Evaluating a policy for a list of goals ends, also when blocks depend on each other in a circle. No block runs twice, even when an error stops the evaluation. When a block takes effect, every block that feeds a path it reads (always, or for the arm or rows it selected) has taken effect before, unless that block itself waits for it. A successful evaluation has run every block that feeds a goal, and only blocks a goal wants directly or through others. A block feeds a path when it is the first to write the closest written place at or above the path, or a place below that. The final store is what the blocks' commits make of the input in the order of the trace.", "quantifier": "every set of declared inputs, every list of blocks with any written and read paths, every behaviour of the blocks (selection, writes, failures), every goal list", "why_tests_cant": "ranges over all dependency graphs including cyclic ones and over all goal lists and failures; a test sees one order", "anchors": ["core/engine/src/policy/evaluator.rs: Driver (demand, run_block, writers_of_longest_prefix, run_block_inner, run_singleton, run_iterated)", "core/engine/src/policy/queries/dependency.rs: compute_graph, EvalGraph::collect_demand_writers, PathPrefix::extends, DataModelPaths::matches_prefix"]}
{"id": "C48", "title": "Transitive imports are collected exactly once", "statement": "Collecting the policies a policy depends on visits exactly the import-reachable documents, each once, and terminates on import cycles.", "quantifier": "every import graph", "why_tests_cant": "all graphs", "anchors": ["core/engine/src/policy/runtime.rs: collect_transitive_policies"]}
{"id": "C49", "title": "Schema dictionaries are resolved hygienically", "statement": "Resolving dictionary references in a JSON schema replaces every reference by the referenced dictionary's values, touches nothing else, and terminates on import cycles.", "quantifier": "every schema and import graph", "why_tests_cant": "all schemas", "anchors": ["core/engine/src/decision_graph/schema_dict.rs"]}
{"id": "C50", "title": "JSON conversion round-trips", "statement": "Converting JSON to engine values and back preserves structure, keys and in-range numbers.", "quantifier": "every JSON document", "why_tests_cant": "all documents", "anchors": ["core/types/src/variable/conv.rs"]}
{"id": "C51", "title": "Operators mean what they say", "statement": "Comparisons follow numeric value (and date instants), == and != are complementary, + - * follow exact arithmetic whenever the result is representable, division and remainder by zero give null-or-error as documented, and/or/not follow the truth tables, ?? picks the first non-null operand, `in` on arrays is membership and string + is concatenation.", "quantifier": "every pair of operand expressions and every context", "why_tests_cant": "ranges over all operand values and all sub-expressions", "anchors": ["core/expression/src/vm/vm.rs: VM::run_inner arithmetic, comparison and In opcodes", "core/expression/src/compiler/compiler.rs: compile_node Binary"]}
{"id": "C52", "title": "The result depends only on the context's content", "statement": "Evaluating an assignment-free expression in two contexts with the same content gives the same outcome, no matter how the contexts share or duplicate their objects internally.", "quantifier": "every expression, every pair of memory layouts of the same content", "why_tests_cant": "there are infinitely many layouts and sharing patterns of one content", "anchors": ["core/types/src/variable/mod.rs: Variable", "core/expression/src/vm/vm.rs: VM::run"]}
{"id": "C53", "title": "Built-in functions mean what they say", "statement": "Evaluating a call of a built-in function yields the documented function of its argument values: round/trunc/floor/ceil/abs return the number nearest, cut or bounding as named; startsWith/endsWith/contains/split decide and cut at exact occurrences; string(number) writes a numeral that reads back as that number; number/isNumeric agree; flatten, keys, values, merge and mergeDeep build the documented array or object without changing their arguments.", "quantifier": "every argument expression, every argument value of the stated kinds, every memory state", "why_tests_cant": "Rounding ties, overlapping separators and nested merges have unboundedly many shapes; tests pick a few literals.", "anchors": ["core/expression/src/functions/internal.rs: round, trunc, floor, ceil, abs, split, contains, merge, merge_deep, deep_merge_variables, to_bool, to_string, to_number"]}
{"id": "C54", "title": "$nodes shows exactly the nodes that have run", "statement": "When a node runs with nodes-in-context enabled, the $nodes it sees has one entry per name of a node that has already produced output, with that output, and nothing else; with the option disabled there is no $nodes.", "quantifier": "every graph, every node behaviour and every point of an evaluation", "why_tests_cant": "all graphs, all interleavings of node completions and switch restarts", "anchors": ["core/engine/src/decision_graph/walker.rs: get_all_node_data", "core/engine/src/decision_graph/graph.rs: evaluate"]}
{"id": "C56", "title": "startOf and endOf bound the calendar period of a date", "statement": "For a date in a zone with a fixed offset and any unit, startOf and endOf give valid dates, and an instant lies between them just when it is in the same second, minute, hour, day, week (from Monday), month, quarter or year; in every zone the same holds of the readings of the clock whenever both results are valid. Refuted for quarters on the 31st of May, July and August, and for days whose midnight the zone skips: the result is an invalid date.", "quantifier": "every date in range, every unit and unit name, every zone", "why_tests_cant": "hundreds of millions of days with leap years, week and quarter boundaries; tests pick a few", "anchors": ["core/expression/src/vm/date/mod.rs: helper::start_of, helper::end_of", "core/expression/src/functions/date_method.rs: start_of, end_of"]}
{"id": "C57", "title": "Comparisons of dates by a unit form a total preorder", "statement": "In one zone with a fixed offset, isSame by a unit holds just when both dates are in the same period, isBefore/isAfter just when one is earlier and they are not in the same period; exactly one of the three holds, isSame is symmetric and isBefore is the converse of isAfter. Refuted for dates of different zones (isSame depends on the order) and without a unit (isSame compares milliseconds, isBefore nanoseconds).", "quantifier": "every pair of dates in range and every unit", "why_tests_cant": "all pairs of instants and all units", "anchors": ["core/expression/src/vm/date/mod.rs: helper::is_same, helper::is_before, helper::is_after", "core/expression/src/functions/date_method.rs: compare_using"]}
{"id": "C58", "title": "Adding a duration to a date", "statement": "In a zone with a fixed offset, adding n seconds, minutes, hours, days or weeks moves the instant by exactly that time and subtracting moves it back; adding n months or quarters moves the month by n (or 3n), keeps the time and cuts the day to the length of the new month; adding n years keeps every other field. Refuted: 29 February plus a year is invalid, and in a zone whose clock goes back, adding an hour can give an invalid date.", "quantifier": "every date in range, every count and unit", "why_tests_cant": "all dates and counts, with leap years and month lengths", "anchors": ["core/expression/src/vm/date/mod.rs: helper::add_duration", "core/expression/src/vm/date/duration.rs: Duration::from_unit, negate", "core/expression/src/functions/date_method.rs: add, sub"]}
{"id": "C59", "title": "Differences of dates", "statement": "diff counts whole units, rounded towards zero: between instants for seconds to hours, between clock readings for days and weeks, and whole months for months (quarters and years are months divided by 3 and 12); it changes sign when the dates are swapped, and after adding n units to a date the difference to that date is n.", "quantifier": "every pair of dates in range, every unit", "why_tests_cant": "all pairs of dates; the month algorithm interpolates between anchors of varying month lengths", "anchors": ["core/expression/src/vm/date/mod.rs: helper::diff, month_diff, add_months_to_date", "core/expression/src/functions/date_method.rs: diff"]}
{"id": "C60", "title": "The fields of a date are those of its clock", "statement": "year, month, day, hour, minute, second are the reading of the clock of the date's zone; weekday counts from Monday, week is the ISO week, dayOfYear and quarter are those of the calendar; isToday/isYesterday/isTomorrow compare with the present instant on that clock; tz keeps the instant; a timestamp reads back; set changes just the named field. Refuted: the offset written in an RFC 3339 text is not used.", "quantifier": "every date, every zone, every field", "why_tests_cant": "all instants and zones", "anchors": ["core/expression/src/functions/date_method.rs: getter, set, tz", "core/expression/src/vm/date/mod.rs: parse_date, helper::set"]}
{"id": "C61", "title": "The check of a policy's input reports exactly what is wrong", "statement": "Checking an input against the data models of a policy reports an error at a path if and only if the value there is not what the models declare for that place: a text, number, boolean, date text, a value of an enumeration or dictionary, an id present in the list of its target, a list, an object nested at most 32 entities deep. Null and undeclared keys are never reported. Each error names the type or the text found. It does not check that required properties are present, nor that dates are dates.", "quantifier": "every set of data models, every input value", "why_tests_cant": "Inputs nest to any depth and lists have any length; the claim is about every place of every input, including the ones where nothing must be reported.", "anchors": ["core/engine/src/policy/validator.rs: InputSchema::validate", "core/engine/src/policy/refs.rs: RefPoolIndex", "core/engine/src/policy/ir.rs: classify_roots"]}
{"id": "C62", "title": "References by id are replaced by the items they stand for, and nothing else changes", "statement": "Before a policy is evaluated every id at a declared reference field of the input or of an entity of the input is replaced by the last item of the target's list with that id; every other value stays. (Refuted: the caller's own input is changed, so that the same input no longer passes the check; references of entities held by other entities are checked but never replaced.)", "quantifier": "every set of data models with names without dots, every input, every place in it", "why_tests_cant": "The claim is about every place in the data, including shared objects, and about all orders and overlaps of fields.", "anchors": ["core/engine/src/policy/evaluator.rs: hydrate_references, evaluate", "core/engine/src/policy/queries/scope.rs: compute_reference_fields", "core/engine/src/policy/refs.rs"]}
{"id": "C63", "title": "The analysis of an expression reports everything it reads", "statement": "For every expression without assignments whose closures are nested less than 32 deep, two contexts that agree on $ and on every property the dependency analysis reports (element properties reached through an alias excepted, their collection has to agree) give the same outcome. Every name in a report is written in the expression; where only dotted names are read the report is exactly the list of these, and properties of the elements of a collection are reported under the collection's path. (Refuted: $ itself is read but never reported; a name assigned in one branch is taken as assigned everywhere; what is read 32 or more closures deep is dropped.)", "quantifier": "every expression, every pair of contexts", "why_tests_cant": "The claim is about what an expression does not read: it must hold for every change of every unreported property, at any nesting of closures, aliases and computed accesses.", "anchors": ["core/expression/src/intellisense/dependency.rs: DependencyProvider::walk", "core/engine/src/policy/blocks/property_read.rs: PropertyRead::walk_deps"]}
{"id": "C64", "title": "The blocks of a policy do what they say", "statement": "An expression block leaves the value of its expression at its property, an assertion leaves the truth of the formula its indentation spells (left to right, groups first, non-booleans count as false, one failing condition fails the block), a match leaves the value of its first arm that holds, or null; every other property stays as it was, the environment of later expressions stays in step with the store, and tracing changes neither outcome nor store. A block that fails changes nothing. (Refuted: with two arms of the same id the wrong value is written; a block that stores the object it writes into, or the whole context, makes the store contain itself.)", "quantifier": "every expression, assertion and match block with a dotless property and expressions that assign nothing and do not use $root, every store", "why_tests_cant": "Assertions can be nested arbitrarily, the number of conditions and arms is unbounded and the store is an arbitrary, possibly shared structure.", "anchors": ["core/engine/src/policy/blocks/assertion.rs: evaluate_conditions, execute", "core/engine/src/policy/blocks/match_block.rs: select, commit", "core/engine/src/policy/blocks/expression.rs: execute", "core/engine/src/policy/blocks/context.rs: write, mirror_top_level", "core/engine/src/policy/evaluator.rs: bind_env, run_singleton"]}
{"id": "C65", "title": "Evaluating a policy solves its equations", "statement": "When a policy of expression, assertion and match blocks is evaluated, every block that has run finds at its property, in the final store, exactly what it computes from the final store, and all other properties are as in the input. If the evaluation fails there is a block that computes nothing. Tracing, the order of the goals, additional goals and sharing inside the input change neither what a block computes nor whether the evaluation succeeds; with fewer goals it still succeeds and runs no other blocks. (Refuted: with a circle the evaluation succeeds but the final store does not satisfy the blocks; what is read through $root is not waited for; with dotted properties the result of a block depends on what else is asked for.)", "quantifier": "every policy whose blocks have different dotless properties and no circle, every input, every list of goals, traced or not", "why_tests_cant": "Blocks run on demand, in an order that depends on the goals and on the arms chosen at run time; the claim ranges over all policies, goals and chosen arms.", "anchors": ["core/engine/src/policy/evaluator.rs: evaluate, demand, run_block, run_singleton, collect_reads", "core/engine/src/workspace/db.rs: read plans", "core/engine/src/policy/blocks/mod.rs: BlockReadPlan", "core/engine/src/policy/blocks/property_read.rs"]}
{"id": "C66", "title": "Decision tables in policies say what their rows say", "statement": "A decision table of a policy puts into every column what its rows that hold say: the first value from top to bottom, or null, and all values in order if the column is collected. A row holds if all its input cells do; rows after the one that settles the last column do not count, so they cannot make the table fail. The table fails exactly if a row that counts or the value of a column cannot be evaluated; no other property changes, and the order in which the collected columns are written does not matter. Tracing changes neither success nor what is written; the trace lists exactly the rows that count and hold and tells for every input cell of every row whether it holds. (Refuted: with eight rows or more, a field that cannot be evaluated fails the table although no row needs it, and a row whose cell cannot be evaluated is passed over, both only without tracing; a table that fails keeps the columns it wrote before; an output cell sees what the columns to its left have just written; with two columns for one property the lower row can win.)", "quantifier": "every decision table with different column ids, different dotless properties and output cells that do not read the table's own columns; every store; with an index, every table whose input cells all evaluate", "why_tests_cant": "Rows, columns and cells are unbounded, the index applies only to larger tables and only to some columns, and rows are skipped depending on which columns are settled.", "anchors": ["core/engine/src/policy/blocks/decision_table.rs: parse, parse_output_column, select, commit, evaluate_cell, row_inputs, candidate_rows", "core/engine/src/nodes/decision_table/index.rs: TableIndex", "core/engine/src/policy/evaluator.rs: bind_env, run_singleton"]}
{"id": "C67", "title": "Removing what the hints about decision tables report changes nothing", "statement": "For a decision table of a policy that collects nothing, a row is reported exactly if a row above it asks no more: every input cell of the upper row is empty or the same. Whenever a reported row holds, so does the row it is reported with. Removing any reported rows leaves what the table writes unchanged if each is a duplicate or the row it is reported with has a value for every column. A column is reported as having no conditions exactly if all its cells are empty, and can be removed; a column reported as never changing the outcome can be removed where rows that differ in another column exclude each other. (Refuted: a row reported as unreachable can supply a column the row above leaves empty; a column reported as never changing the outcome can change it when rows hold together; a cell of blanks counts as empty for the hint but makes the table fail; a reported row can make the table fail.)", "quantifier": "every decision table, every set of reported rows, every reported column and every store in which the input cells evaluate", "why_tests_cant": "The hints are promises about all inputs a table may ever see; rows, columns and contexts are unbounded.", "anchors": ["core/engine/src/policy/linter/table_hygiene.rs: TableView::first_hit, TableView::shadows, RedundantTableRow::check, NonDiscriminatingColumn::check, never_affects_outcome, fall_through_preserved"]}
{"id": "C68", "title": "Removing parentheses reported as redundant changes nothing", "statement": "A pair of parentheses in an expression of a policy is reported exactly if a reader who knows the precedence of operators does not need it: around anything that is not an operation, around anything that stands alone between delimiters, and around an operation inside an operation of the same family that groups the same way without them; a pair around another pair is always reported. After removing any of the reported pairs the text still parses, to the same tree up to the parentheses, with the same value; after removing all of them nothing is reported. (Refuted without these hypotheses: a negation as the right operand of a tighter operator swallows what follows the removed pair; an interval that begins with a closing bracket cannot stand first between brackets; on a context that is no object (a).b fails and a.b is null; after an assignment ($root).a and $root.a differ.)", "quantifier": "every expression that can be written, every set of reported pairs, every context and every store", "why_tests_cant": "The hint is a promise about every nesting of operators and every context; both are unbounded.", "anchors": ["core/engine/src/policy/linter/redundant_parentheses.rs: visit, operand_site, is_redundant, is_atom, is_compound, same_family, scan", "core/expression/src/parser/parser.rs: Parser::binary_expression", "core/expression/src/compiler/compiler.rs: Compiler::compile_node"]}
{"id": "C69", "title": "The value of an expression has the type that the checker gives", "statement": "If the strict type checker reports no error for an expression, then on every input of the declared object type its value, if it has one, is of the type that the checker gives to the expression; and if no part has an unknown type, evaluation fails only where a result does not exist (overflow, an index that is no index, a slice outside, an interval that cannot be listed, # outside a closure function), where `in` or an interval does not take the value, or where a function or method rejects its arguments: no operator, condition, callback or member access meets a value of a wrong kind. The arguments of an accepted call of known types are of the number and kinds the function takes (except optional second arguments: `round(1, \"a\")` is accepted and fails), so functions that give a value for whatever they take (len, contains, upper, lower, trim, startsWith, endsWith, split, fuzzyMatch, abs, floor, ceil, isNumeric, bool, type, keys) never fail in an accepted expression; a method of a date gives null or a value of its type. This holds for expressions without assignments and deprecated functions whose divisors are literals that always divide, whose operands of and/or and + have known types, whose object keys are distinct constants, whose merged types lose nothing, whose closure functions do not filter intervals or flatten intervals or nulls, and whose functions and methods have a result that the types tell. (Refuted for each of these: 1/0 is null and typed number; `true and x` and `+x` are typed and are whatever x is; filter of an interval is an array typed interval; flatMap leaves intervals and nulls; [{a: 1}, {b: 2}] claims a number at `a` of the second; of a repeated key the first value and the last type count; the year of an invalid date is null; merge of nothing, values of an object with more keys, keys of an array; a name under an unknown root is typed null; {} in [{}] and min([\"a\"]) pass the check and fail.)", "quantifier": "every library of arithmetic and text functions, every clock, every object type of the input, every expression the checker accepts, every input of the type", "why_tests_cant": "Soundness of a type checker is a statement about all expressions and all inputs of a type; tests compare the inferred types of a list of expressions with expected types and never run them on all values.", "anchors": ["core/expression/src/intellisense/type_provider.rs: TypesProvider::determine, maybe_nullable, types_disjoint, check_enum_comparison, merge_typecheck, flatten_typecheck, values_typecheck", "core/expression/src/functions/defs.rs: FunctionTypecheck, StaticFunction::check_types, CompositeFunction::check_types", "core/expression/src/functions/internal.rs: signatures", "core/expression/src/functions/date_method.rs: signatures", "core/expression/src/intellisense/mod.rs: type_check"]}
{"id": "C70", "title": "A goal depends only on the inputs that are reported for it", "statement": "The inputs reported for the goals of a request are exactly the paths the goals depend on, directly or through other blocks, that no block of the unit computes. Two inputs that agree on these paths make both evaluations fail or give every goal the same value, whatever else they contain. A request is accepted exactly if every goal is a path some block mentions, the input is valid and each reported path is optional or present (a list above it, or the collection of its entity, counts); otherwise the first unknown goal, or the sorted list of exactly the paths that are missing, is returned. Without goals, the goals are the computed properties nothing depends on; if nothing depends on itself they depend on every computed property. (Refuted: a goal inside a computed property that another block reads is refused as a missing input although the policy computes it; a property whose name has a dot is reported under a path the input cannot have; a request without goals does not compute a property read only in an arm that is not chosen.)", "quantifier": "every policy whose blocks compute different top-level properties without circles, every data model and collection of entities, every goal that is a block's property, every pair of inputs", "why_tests_cant": "Non-interference compares all pairs of inputs; a test shows that one change of one input leaves one result alone.", "anchors": ["core/engine/src/policy/queries/dependency.rs: compute_graph, DependencyGraph, EvalGraph::{reachable_from, reachable_input_paths, terminal_sinks}", "core/engine/src/policy/queries/schema.rs: outputs, goal_reachable_input_paths", "core/engine/src/policy/queries/scope.rs: EntityForm", "core/engine/src/policy/evaluator.rs: EvalArtifact::evaluate, validate_request, input_satisfied, input_path_satisfied"]}
{"id": "C71", "title": "Renaming a global property changes nothing that expressions compute", "statement": "Renaming a global property of a policy edits an expression exactly at the places where the name stands for the property: not where it is the element of a closure, a field, a key of an object or a text. With the value under the new name in the context, the edited expression gives the same value or the same error as before; renaming back restores it. A name that is no global property is left alone. A written key is renamed if it is the property's, with or without the mark of a list. In the JSON of a block only texts change, each text with a site into its edited text; for nodes of a graph nothing under the protected keys changes, and an embedded document is edited in the same way. (Refuted: the property read through `$root` is not renamed; the alias of a closure over something else than a path is renamed along; the new name may be captured by an alias or be in use, which is not checked; a name assigned in another branch is not renamed; renaming the property `date` turns the type `date` of all properties of the data model into the new name; a key that writes a part of the property is not renamed.)", "quantifier": "every expression without assignments that the parser can build, every pair of names, every context and heap, every set of global properties and entities, every JSON document and place in it", "why_tests_cant": "That an edit preserves the meaning of every expression in every context, and touches no other place, ranges over all syntax trees; tests compare single texts.", "anchors": ["core/engine/src/workspace/editor.rs: rename, build_replace_block, walk_renamable, RenameSite::write_key_span, EntityGraph::walk_segment_targets, RenameRewrites", "core/expression/src/intellisense/dependency.rs: references", "core/engine/src/policy/queries/scope.rs: EntityGraph"]}
{"id": "C72", "title": "The conditional schema lists what a request needs, always or for the arms it selects", "statement": "The conditional schema of a request has variants exactly if one match block, and only one, compares the same input, an enumeration or truth value, with constants in all its conditions: one variant per arm with a condition, in order. Its common group lists the declared inputs and outputs that have to do with what no arm depends on, all arms depend on, or the conditions read; the variant's group those that have to do with what only its arm depends on. Otherwise the schema has a common and a conditional group, the latter with the conditions of the arms, sorted and joined by `or`. Every input a goal depends on is in some group. An evaluation depends only on the input paths it reads: those in the texts of the blocks it runs and the arms it selects. If arms keep what they need to themselves, an evaluation depends only on the common inputs and those of the selected arm's variant, or under a condition that was met. (Refuted without that condition: an input that an arm needs and that is also read elsewhere, or by an arm without condition, is listed for that arm only; a request that selects another arm is refused if the input is missing.)", "quantifier": "every policy of expressions, assertions and match blocks, every set of policies, goals, declared inputs and types, every pair of requests and inputs", "why_tests_cant": "What an evaluation can depend on ranges over all inputs, all arms taken and all chains of blocks; tests compare single schemas.", "anchors": ["core/engine/src/policy/queries/conditional.rs: conditional_schema, collect_match_blocks, clean_discriminant, build_union, build_flat, group_for", "core/engine/src/policy/queries/schema.rs: inputs, outputs", "core/engine/src/policy/evaluator.rs: EvalArtifact::evaluate"]}
{"id": "C73", "title": "A workspace answers from the documents in it, not from how they got there", "statement": "After any sequence of setting, replacing and removing documents, setting function types and asking questions, a question about policies (parsed form, rules, connected policies, unit, outputs, evaluation artifact, diagnostics) gets the answer that follows from the documents left alone: a policy's unit is made of exactly the policies connected to it by imports in either direction. A question about a graph (analysis, diagnostics) gets the analysis in which every called graph shows the signature of its own analysis, every called policy that of its connected policies, every function the type set for it - provided that whenever something was asked no graphs called each other in a cycle, no policy from outside had joined an otherwise unchanged group of connected policies, no resolver was installed and function types hash without collision. So two histories that leave the same documents answer alike. (Refuted without these conditions: of two graphs that call each other, what one shows depends on which was asked about first; a graph keeps a policy's old signature after a new policy begins to import that policy; a graph analysed before a resolver is installed keeps its unknown function types.)", "quantifier": "every history of edits and questions of any length, every set of documents, every analyser", "why_tests_cant": "Which cached result survives depends on the whole order of edits and questions; tests try a few orders.", "anchors": ["core/engine/src/workspace/db.rs: Db::set_document, remove_document, snapshot, unit, enriched_of_unit, cached_graph_analysis, store_graph_analysis, policy_diagnostics, eval_artifact, PolicyDerivedCache, Snapshot::compute", "core/engine/src/workspace/graph/queries.rs: graph_analysis, graph_dictionary_blocks, decision_signature", "core/engine/src/workspace/graph/function.rs: function_output_type, set_function_type, function_state"]}
{"id": "C74", "title": "Writing a reported chain of conditionals as a match block changes nothing", "statement": "The hint that prefers a match block is given exactly for expression blocks that are a chain c1 ? v1 : c2 ? v2 : ... : e (parentheses aside) with at least two conditions, with their number, and with the path that all conditions are about if there is exactly one. The match block with the same conditions and alternatives in the same order, and a last arm without condition, leaves the same properties whenever the expression can be evaluated (and the other way round if the conditions give truth values and all alternatives compile). (Refuted: a condition that is not a truth value makes the expression fail, while the match block goes on with the next arm.)", "quantifier": "every policy, expression, chain length, store and way of writing the arms", "why_tests_cant": "The equivalence is about all chains and all stores; the two forms are evaluated by different code.", "anchors": ["core/engine/src/policy/linter/prefer_match.rs: PreferMatch::inspect, maximal_paths, check", "core/engine/src/policy/linter/mod.rs: AstOps::unwrap_parens, dotted_path", "core/engine/src/policy/blocks/match_block.rs", "core/expression/src/parser/ast.rs: Node::walk"]}
{"id": "C75", "title": "A block of an entity computes for each instance what it computes for that instance alone", "statement": "A block whose output belongs to an entity runs once for every element of the entity's collection. If what it reads besides the instance does not contain an instance, each instance gets at the output property exactly what the block computes with that instance under the entity's name in the store as it was before; its other properties, the other objects and the store itself stay as they were. If the block fails for an instance, that one and the later ones are as they were. An instance that lies in an owner sees the owner among its own properties and does not keep it. (Refuted: a block that reads the whole collection sees the results of earlier instances, so equal instances get different results; a block that stores the instance in itself leaves a store without finite content.)", "quantifier": "every block, entity, collection (any number of instances with any contents), store and place of the collection", "why_tests_cant": "Instances, store and scope are shared mutable objects; that no run of one instance reaches another, or leaves the owner behind, is about all heaps and all numbers of instances.", "anchors": ["core/engine/src/policy/evaluator.rs: run_iterated, PhaseScope::bind, InstanceSlot::write_back, select_pick, commit_pick", "core/types/src/variable/mod.rs: depth_clone, dot_insert"]}
{"id": "C76", "title": "The loader of a directory lists its decisions and loads what it lists", "statement": "A filesystem loader lists exactly the .json files at any depth below its root, each once, under the key that names the path from the root with slashes. Loading a key that consists of names gives the decision in the file of that path, an internal error if there is a directory or something that is not a decision, and `not found` if there is nothing; so every listed key is found. A key that is not absolute and has no part `..` never loads anything outside the root. (Refuted: an absolute key or one with `..` reads decisions outside the root; with an empty root keys are loaded from the working directory but none is listed.)", "quantifier": "every file tree without links, working directory, spelling of the root (relative or absolute, with or without trailing slash, with dots) and key", "why_tests_cant": "Trees are unboundedly deep and wide, the root can be spelled in many ways, and staying below the root is about every key.", "anchors": ["core/engine/src/loader/filesystem.rs: FilesystemLoader::key_to_path, read_content, load, load_sync, keys"]}
{"id": "C77", "title": "The older functions of dates read the clock of UTC", "statement": "year, monthOfYear, dayOfMonth, dayOfWeek, dayOfYear and weekOfYear of a number of seconds are the fields of the same instant on the clock of UTC, as the methods of dates give them; monthString and weekdayString are the names of that month and day. A text is read once: date(text) is the second it tells, and every other function gives for the text what it gives for that number; fractions of a second do not count. startOf and endOf give the first and the last second of the minute, hour, day, week or month around the given second, and startOf that of the year. Other kinds of values, texts that cannot be read and units without a name are errors. (Refuted for endOf(date, 'year'): it gives the last second of the year only if the month of the date has 31 days.)", "quantifier": "every second in the years of the library, every text the library reads, every name of a unit", "why_tests_cant": "All months, leap years, weeks across years and negative times; a test with a date in January or March does not see that the end of the year is wrong for the others.", "anchors": ["core/expression/src/functions/deprecated.rs: DeprecatedFunction, imp", "core/expression/src/vm/helpers.rs: date_time, time, DateUnit, date_time_start_of, date_time_end_of, get_month_days"]}
{"id": "C78", "title": "Write conflicts are the properties that unconnected policies write", "statement": "The list of write conflicts of a workspace, asked after any history of edits and questions, has a property exactly if two policies among the documents that no imports connect, in either direction and through any number of others, both write it; with it come all the policies that write it. The list and the policies of an entry are in order and without repetition. So when the list is empty, any two policies that write the same property are connected. (Refuted for properties inside others: a policy that writes `user` and an unconnected one that writes `user.name` are not listed.)", "quantifier": "every history of edits and questions, every set of policies with any imports, every analyser of what rules write", "why_tests_cant": "Connection goes through any number of imports in either direction, and the list must not depend on the order of a hash map or on what was cached before.", "anchors": ["core/engine/src/policy/queries/components.rs: Db::cross_component_write_conflicts, component_members", "core/engine/src/workspace/db.rs: compute_components"]}
{"id": "C79", "title": "A search in a workspace finds, marks and ranks texts as it should", "statement": "Every hit of a search stands at a place of a document that is searched (names, keys, expressions, cells, prose, code), for a text there in which the letters of every word of the query stand in their order within a run at most three times as long as the word; its mark spells one of the words, and of a long text 200 characters around the mark are shown. A search that gives fewer hits than its limit has a hit for every place with a text in which all the words stand, whatever their case. The limit is 50 if none is asked and never above 500, and a smaller limit gives the first hits of a larger one. The best score is first, then path, block, node, row and mark. Neither the case of the query, nor its white space, nor the order in which documents came changes the hits. For one word, of two hits of a kind a text that is the word is before one that is not, and one that begins with it before one that does not. (Refuted: a text whose letters spell a word closely is always found; the hits do not depend on the order of a hash map.)", "quantifier": "every set of documents, every query, every limit, every notion of lower case, letter and white space", "why_tests_cant": "Texts, queries and documents have any size; a hit can be lost, or a mark be off, for one position, one length of text or one kind of place only.", "anchors": ["core/engine/src/workspace/search.rs: Db::search, SearchMatcher, score_token, find_substring, snippet, Collector, search_policy_block, search_ignored_block, prose_text, search_graph_node", "core/engine/src/workspace/types/search.rs: SearchHit, SearchHitKind::weight"]}
{"id": "C80", "title": "The hint of repeated derivations counts copies that are there, reports all of them and never nests", "statement": "Every hint stands at a derivation (an expression that computes something, at least six characters without white space) of the policy under analysis; the unit has as many copies of its text, white space apart, as the hint says, at least two, and at least three unless the text has three operations. A text that is written that often is reported at every place where the policy writes it, with the number of all its copies, unless a copy lies in a larger text that is repeated as well. No hint lies in another one of a different text. The number of a hint is that of the places where a hint with its message is given, and every other copy lies in a larger text that is reported. The hints come by operations, length and text. The snippet is the text on one line, at most 60 characters. Neither the order of a hash map nor that of the policies of the unit changes the hints. (Refuted: the copies derive the same value; the number of policies is that of the copies that are counted.)", "quantifier": "every unit of policies, every text and tree, every span the parser gives, every order of the hash maps", "why_tests_cant": "Texts, trees and units have any size; one order of the fragments, one boundary of a span or one covered copy can hide or double a hint.", "anchors": ["core/engine/src/policy/linter/repeated_derivation.rs: RepeatedDerivation::collect, check, is_op, op_count, threshold", "core/engine/src/policy/linter/mod.rs: LintContext::unit_policies, AstOps::fingerprint, display_snippet, chars_at"]}
{"id": "C81", "title": "The type derived from a JSON schema holds every value the schema allows, and the reports on a schema name the right places", "statement": "A value that the JSON schema of an input allows (type, properties, required, items, enum, anyOf, oneOf, dictionary) is a value of the type that the workspace derives from the schema, if no string is asked to be a date and of the cases of a union at most one is an array type and at most one an object type. The converse holds for schemas without further keywords in which a property takes null exactly if it may be left out. A property reported because static type and validation differ on null may be left out, its type takes null and its schema refuses null; a property that may be left out and only asks for a type other than null, for a list of values without null or for a dictionary is reported. The reported inline enumerations are the lists of two or more strings below the root. The dictionaries collected from a schema are the ones named in it, and the type depends on no other dictionary; it has no doubly nullable part and no object type that lists a key twice. (Refuted: dates; unions of object types; a schema with both a type and cases is always reported.)", "quantifier": "every JSON schema of any depth, every value, every set of dictionaries", "why_tests_cant": "Schemas and values nest without bound, and merging the cases of a union depends on every combination of types.", "anchors": ["core/engine/src/workspace/graph/schema.rs: SchemaType::variable_type_with, typed, object_type, admits_null, nullability_divergences, inline_enum_paths, dictionary_names", "core/engine/src/workspace/graph/mod.rs: wrap_optional", "core/types/src/variable_type/util.rs: VariableType::merge"]}
{"id": "C82", "title": "The type derived from a TypeScript type holds every value of it", "statement": "Every value of the TypeScript type that is given for the output of a function node is a value of the type that the workspace derives from it (keywords, literals, arrays, tuples, object types with optional members, unions, intersections, Array, Promise, Readonly, Date), if it has no keyof and no rest element and of the cases of a union and of the positions of a tuple at most one is an array type and at most one an object type. For keywords, string literals and their unions, arrays, object types, T | null, generics, dates and the intersection of object types with different keys the derived type has no other values. No object type lists a key twice. (Refuted: keyof, rest elements, unions of object types.)", "quantifier": "every TypeScript type of any depth, every value", "why_tests_cant": "Types and values nest without bound; merging the parts of a union or an intersection depends on every combination of types.", "anchors": ["core/engine/src/workspace/graph/ts_type.rs: TsTypeParser::convert, keyword, literal, type_literal, union, intersection, reference", "core/types/src/variable_type/util.rs: VariableType::merge"]}
