# Formal model of gorules/zen in Rocq (Coq 8.16.1)

Layout: `rocq/theories/`. Model files hold definitions only, each with the file and lines of /repo it models. `*Spec.v` files say in
words of the user what is claimed, without the helpers of the model. `*Facts.v` (and `*Claims.v`, `RoundTrip.v`, ...) hold the proofs. The
property theorems `Cxx_...` are in the `Prop*.v` files only, each followed by `Print Assumptions` and accompanied by an `Example` on concrete data
that meets its hypotheses. A name ending in `_refuted` states with a witness that a claim one would expect does not hold of the code.

## Trusted base

* Coq's kernel (coqc 8.16.1) and its standard library (no other library).
* `Print Assumptions` under every property theorem prints "Closed under the global context": no axioms at all, neither ours nor the standard
  library's. No `Admitted`, no functors, no switched-off checks, no plugins.
* The check of the whole build also lists seven axioms in files of the standard library that are loaded through imports: `Over_rel`, `over_rel`,
  `over_rel_done`, `Under_rel`, `Under_rel_from_rel`, `Under_relE` and `under_rel_done` of `Coq.ssr.ssrunder.Under_rel`. No property theorem
  depends on them.
* The hand translation Rust -> Gallina. /repo was read as text; nothing was compiled or run. Every definition cites what it models and says
  what it leaves out.
* The documented behaviour of the external crates listed under "External code".

## Modelling conventions

* `Variable` values that share through `Rc<RefCell<..>>` are locations into an explicit heap (`Value.v`), allocation appends a cell. Aliasing, in-place
  mutation and cycles are therefore visible. `repr h v t` relates a value in a heap to its content, a tree.
* Strings are byte strings (Coq `string`), as Rust's `str` is UTF-8 bytes. White space that the code trims or skips is the ASCII one.
* Objects are association lists. Where the order of a hash map (above 32 keys) matters it is arbitrary: a parameter, or the statement speaks about sets.
* Rust panics (`unwrap`, overflow in debug builds, double borrow) and `Err` are explicit results (`EPanic` and the other errors of `Base.v`).
* A Rust recursion without a structural argument has fuel in the model; the theorems show that there is always enough, or quantify over it.
* Locks, threads, async scheduling and time-outs are left out: each API call is one atomic step of a history.

## External code: parameters and documented behaviour

* rust_decimal: numbers are (mantissa, scale) pairs with exact comparison; `+ - * / % ^` and rounding are fields of the record `ext`/`lib`, so theorems hold for
  every implementation of them; theorems that need exact sums say so in a hypothesis. `from_str_exact`, `normalize`, `to_u64`, `to_i64`: as documented. Reading a
  number (`pn`), writing one (`nt`), scientific notation and the float fall-back (`sci`, `fl`): parameters.
* chrono/chrono-tz: proleptic Gregorian calendar, no leap seconds, instants in nanoseconds; a zone is a pair of functions between instants and readings
  (`Dates.v`). Formats of date texts, formatting, zone names and the present instant: the record `clockwork`.
* petgraph (StableDiGraph, Dfs, toposort): as documented, over lists of edges.
* serde_json: documents are `Json.v` trees; text parsing is not modelled. `BTreeMap` order is by key.
* regex, fuzzy matching, Unicode case tables, random numbers: fields of the library record. `plain_lib` (their answers depend on the content of the arguments
  only) is a hypothesis of C52 and of what builds on it, and is proved for the functions that are modelled (`ContentFacts.v`).
* JavaScript function nodes, HTTP, custom node handlers: an arbitrary handler (`other` in `Engine.v`, `handle` in `Walker.v`).
* JSON-Schema validation of inputs and outputs: the parameter `check`. Loading: the parameter `load`, or a store as a function.
* Policy blocks (`Driver.v`): what a block reads, selects and writes are the parameters `reads`, `always`, `select`, `commit`; see C47.
* Text of dates in templates (`sd`), in JSON (`dj`, `dt`) and in reference serialisation (`dv`): parameters.

## What is modelled

| source | model | left out or simplified |
| --- | --- | --- |
| types/variable (mod, impls, map), rccell | Value, Heap, VMap | pointer identity of dynamic values |
| types/variable/conv, ser, de | Convert | JSON text; big-number text formats |
| types/variable/ref_ser, ref_deser, rcvalue | RefSer | text encoding; hash order is a parameter |
| types/variable_type (mod, util, conv) | VarType | sharing of object types, pointer shortcuts, display |
| expression/lexer | Lexer | strum tables are case lists |
| expression/parser (parser, standard, unary, ast, constants) | Parser, Ast | spans and metadata; error texts; arena allocation |
| expression/compiler, vm (vm, helpers, interval) | Compiler, Vm, Ops, Eval | error texts; fast-path opcodes are modelled as the opcodes they are |
| expression/functions (internal, defs, method, date_method, deprecated), vm/helpers (dates) | Funcs, DateMethods, OldDates | the formats of texts (record `oldclock`); see External code |
| expression/isolate, scope, expression | Isolate, Session | |
| expression/vm/date (mod, duration, duration_parser, duration_unit) | Dates, Duration | float quotients are exact fractions |
| expression/intellisense/discriminant | Discriminant | |
| expression/intellisense/dependency, policy/blocks/property_read | Deps | spans, field navigation (references: Rename) |
| engine/decision_graph (graph, walker, cleaner, tracer, schema_dict) | Graph, Walker, Nodes, Engine, Docs | trace contents beyond what C46/C54 say; timing |
| engine/nodes (context, expression, decision, transform_attributes, decision_table, switch) | Nodes, Engine, Table, Decision | function and custom nodes |
| engine/loader (memory, cached), model/decision_content, engine, policy/runtime | Docs, EngineSet | zip loaders |
| template | Template | |
| engine/policy: evaluator (driver), queries/dependency (writers), validator, refs, ir (classify_roots), queries/scope (reference fields) | Driver, Validate | iterated scopes, traces |
| engine/policy/blocks (expression, assertion, match_block, context) | Blocks | reading the document, analysis, decision tables of policies |
| engine/policy/blocks/decision_table (parse, select, commit, execute) | PTable (index: Table) | names, declared types, diagnostics, base64 of the trace bits; the read plan of tables is not part of PolicyRun |
| engine/policy/linter/table_hygiene | Lint | texts of the hints, names of columns |
| engine/policy/linter/redundant_parentheses | ParenLint | texts of the hints, spans (a finding is the way to the pair) |
| engine/policy/linter/prefer_match | PreferMatch | texts of the hints, spans (a finding is the block, the number of conditions and the path) |
| engine/policy/linter/repeated_derivation, linter/mod (unit_policies, fingerprint, display_snippet) | Repeat | the parser and the span of each node are parameters; a character is an ascii; of a block only its kind, name and expressions; texts of the messages |
| engine/workspace/graph/schema, graph/mod (wrap_optional) | Schema | the types of the dictionaries are a parameter; a JSON object is a list of members, read by first match; the validator itself (an external crate) is not modelled: SchemaSpec states what the keywords ask |
| engine/workspace/graph/ts_type | TsType | the TypeScript parser (an external crate) and the trimming and wrapping of its source; types that the code maps to "any" are one constructor; a member without type is one of them |
| engine/policy/evaluator (blocks that run for every instance) | Iterate | decision tables, traces, demanding other properties between selection and commit |
| engine/loader/filesystem | Files | std `Path::join`, `components`, `strip_prefix`, `extension` on Unix and the resolution of paths by the operating system are modelled on a tree without links, mounts or permissions; names are text; the tree does not change during a call |
| engine/policy/queries/components | Conflicts (over the snapshot of Workspace) | the paths a rule writes are a parameter |
| engine/workspace/search, engine/workspace/types/search | Search (all functions) | a character is an ascii, its case and class are parameters; u32 scores do not overflow (fewer than 30 000 words); of documents only what search reads |
| expression/intellisense/type_provider, scope; signatures in functions/internal, deprecated, date_method, defs | Infer | spans and texts of the messages (an error is its severity and a tag), the table from nodes to types (only the type of the node asked for), completion, inspections |
| engine/policy/queries/dependency (graph, reachability, sinks), queries/scope (EntityForm), queries/schema (paths of inputs and outputs), policy/evaluator (checks of a request, roots) | PGraph | types of nodes, blocks that run for every instance of an entity, decision tables, the order of nodes and edges |
| engine/policy/queries/conditional (conditional schema), queries/schema (selection of inputs) | Conditional | types reported with paths; whether a path has an enumeration or truth value as type, and the declared paths, are parameters; decision tables |
| engine/workspace/db (documents, snapshot, cached results, dependencies of graph analyses), workspace/graph/queries, workspace/graph/function | Workspace | parsing, scope, units, enrichment, signatures, diagnostics and the graph analyser are parameters ([tools]), the analyser as a program that asks for signatures and function types; that the first pass over a rule does not depend on the scope ([scope_free]) is a hypothesis, read off policy/blocks/context.rs; the log of function requests and IntelliSense are left out |
| engine/workspace/editor (rename of a global property), expression/intellisense/dependency (references), engine/policy/queries/scope (EntityGraph) | Rename | entities, fields and graph properties as targets; character positions (the edit is made in the syntax tree); which expressions and keys a block has |
| engine/policy/evaluator (evaluate, run_singleton), workspace/db (read plans) | PolicyRun | rewriting of paths into entities, analysis of broken texts: parameters `rewrite`, `recovered` |

Not modelled: the workspace and editor services but for what the table lists, completion, inspections, natural-language rendering, JavaScript runtime, HTTP and zip loaders, bindings, the C/Node/Python/Java APIs, macros, performance.

## Plan per property

* **C01 Compiled expressions mean what the syntax tree means** - model: Expr/Compiler/Vm/Eval: AST, opcodes, compiler and VM step function, plus a structural big-step evaluator. Proof: simulation by induction on the AST: from any embedding of the code, the VM reaches the evaluator's outcome.
* **C02 Every compiled expression terminates and leaves exactly one result** - model: same. Proof: corollary of C01: finite step count, stack height + 1, ip at the end of the code.
* **C03 Short-circuit operators do not evaluate the skipped operand** - model: same. Proof: theorems about the VM run of the compiled operator, for any skipped operand.
* **C04 Evaluating an expression does not change the caller's data** - model: heap model of Rc/RefCell objects. Proof: heap-extension invariant for assignment-free trees; refuted for assignments by witnesses (aliasing, cycle).
* **C05 A reused isolate behaves like a fresh one** - model: VM::run clears, Isolate record. Proof: state-independence theorem over all histories.
* **C06 The opcode cache is transparent** - model: Isolate + cache as a finite map source->code. Proof: lookup in a cache that is sound w.r.t. the compile function.
* **C07 Reference memoisation is invisible between environment changes** - model: Isolate references map. Proof: invariant: every memo entry equals the recomputed value.
* **C08 Locals shadow the context and the materialised scope agrees with lookup** - model: Scope. Proof: induction on locals.
* **C09 VariableMap is a finite map in both representations** - model: VariableMap Small/Large. Proof: refinement to an abstract finite map over operation lists.
* **C10 Structural equality of values is an equivalence and ignores representation** - model: trees and map equality. Proof: induction on trees.
* **C11 Dotted-path write then read** - model: heap dot/dot_insert. Proof: induction on the path.
* **C12 Detached dotted insert leaves the original untouched** - model: heap dot_head_detach. Proof: induction on the path, heap extension.
* **C13 merge_clone is a pure JSON-merge** - model: heap merge (CloneOnWrite). Proof: induction on the patch tree; refinement to a tree merge.
* **C14 In-place merge can leak into shared data** - model: heap merge (InPlace). Proof: tree-level agreement without sharing; refutation of non-interference.
* **C15 deep_clone is equal and independent** - model: heap deep_clone. Proof: induction on the represented tree.
* **C16 Reference-compressed serialization round-trips** - model: ref_ser / ref_deser over trees with sharing labels. Proof: round-trip theorem.
* **C17 Lexing is total, in-bounds and loses nothing** - model: lexer over byte strings. Proof: induction on the remaining input.
* **C18 Operator precedence and associativity** - model: precedence climbing parser over tokens, independent pretty printer. Proof: round-trip by induction on the tree. The words of the language (names, functions, methods, keywords as properties and keys; for C20 how a cell that calls a function is tested) are pinned by tables written out again in PropWords: names by induction, the finite tables by computation.
* **C19 Parsing always terminates** - model: parser with fuel. Proof: fuel bound linear in the token count suffices.
* **C20 Unary-test cells mean `$ op value`** - model: unary parser fold. Proof: semantics of the flattened chain.
* **C21 Interval membership follows the brackets** - model: interval includes on decimals. Proof: exact comparison on rationals.
* **C22 Iterating an interval visits exactly the integers it contains** - model: interval to_array. Proof: list of Z.
* **C23 String slices are inclusive sub-strings** - model: slice. Proof: byte strings.
* **C24 Closure functions agree with list functions** - model: closure loops in the evaluator. Proof: agreement with list functions.
* **C25 Aggregates do not depend on element order and stay in range** - model: aggregates. Proof: permutation lemmas.
* **C26 First hit policy returns the first matching row** - model: decision table rows. Proof: characterisation of the first matching row.
* **C27 Collect policy returns every matching row in order** - model: decision table rows. Proof: filter characterisation.
* **C28 The rule index never changes a table's result** - model: column index. Proof: index candidates = scan.
* **C29 Cell discriminants are sound** - model: ArmTest from cell ASTs. Proof: soundness w.r.t. the evaluator.
* **C30 Number covers: totality check is exact** - model: NumberCover. Proof: exactness over rationals.
* **C31 Graph validation accepts exactly well-formed acyclic graphs** - model: graph build + cycle check. Proof: equivalence with existence of a cycle.
* **C32 Nodes run in dependency order, at most once** - model: walker next. Proof: invariant over the walk.
* **C33 Graph evaluation terminates** - model: walker. Proof: measure.
* **C34 Switch nodes prune exactly the unselected branches** - model: walker edge pruning. Proof: reachability characterisation.
* **C35 A node's input is the merge of its predecessors' outputs** - model: merge_node_data. Proof: fold characterisation.
* **C36 Recursive decisions hit the depth limit instead of diverging** - model: engine evaluation with depth. Proof: structural recursion on max_depth.
* **C37 Loop execution produces one output per element in order** - model: transform attributes. Proof: list induction.
* **C38 Expression nodes evaluate keys in order and later keys see earlier ones through $** - model: expression node. Proof: list induction.
* **C39 Loader caching is transparent for an immutable store** - model: cached loader. Proof: history invariant.
* **C40 The memory loader is a map** - model: memory loader. Proof: history refinement.
* **C41 A compiled engine answers from its snapshot** - model: engine snapshot. Proof: history refinement.
* **C42 Template rendering** - model: template lexer/parser/interpreter. Proof: induction on the template.
* **C43 Type satisfaction is reflexive and merge is an upper bound** - model: VariableType. Proof: induction on types; refutations.
* **C44 Duration strings add up** - model: duration parser. Proof: refutation + partial sum law for seconds-based units.
* **C45 Internal bookkeeping never leaks** - model: cleaner. Proof: heap/tree induction; refutation.
* **C46 Tracing does not change the result** - model: decision table with and without trace. Proof: equality under the `$`-independence hypothesis; refutation otherwise.
* **C47 Policy blocks run at most once and after what they read** - model: policy driver. Proof: invariant over demand recursion.
* **C48 Transitive imports are collected exactly once** - model: transitive import BFS. Proof: reachability.
* **C49 Schema dictionaries are resolved hygienically** - model: schema dictionary rewriting. Proof: tree induction.
* **C50 JSON conversion round-trips** - model: conversions. Proof: tree induction.
* **C51 Operators mean what they say** - model: Vm operators. Proof: per operator, against a separate specification.
* **C52 The result depends only on the context as a value** - model: heaps as representations. Proof: simulation between two heaps representing the same tree.
* **C53 Built-in functions mean what they say** - model: Functions. Proof: per function, against a separate specification.
* **C54 $nodes shows exactly the nodes that have run** - model: walker and engine. Proof: invariant over the walk.
* **C56 startOf and endOf bound the calendar period of a date** - model: Dates/DateMethods. Proof: the clock is an order isomorphism between instants and readings; the first and last reading of a period; refuted for the 31st (quarters) and for skipped midnights.
* **C57 Comparisons of dates by a unit form a total preorder** - model: same. Proof: from C56 by the order of instants; refuted across zones and without a unit.
* **C58 Adding a duration to a date** - model: same. Proof: readings after moving seconds, months, years; refuted for 29 February plus years and for ambiguous hours.
* **C59 Differences of dates** - model: same. Proof: exact fractions; independence of the quotient from the month length; whole months by the position in the month.
* **C60 The fields of a date are those of its clock** - model: same, getters. Proof: calendar arithmetic; refuted for written offsets.
* **C61 The check of a policy's input reports exactly what is wrong** - model: Validate. Proof: induction over the nesting, against an inductive relation of the places the models speak about; refuted for required properties and dates.
* **C62 References by id are replaced by the items they stand for** - model: Validate (open_store). Proof: each step changes places only from an id to its item; refuted for the caller's input and for entities held by others.
* **C63 The analysis of an expression reports everything it reads** - model: Deps. Proof: relational induction over evaluation in two contexts, along the scopes of the analysis; refuted for `$`, assignments in branches and 32 nested closures. What the parser builds for a text is covered without further hypotheses on the tree (C63_text; ParseSane: an invariant of every parser function, for token lists without a quoted `$root`).
* **C64 The blocks of a policy do what they say** - model: Blocks. Proof: the stack of frames of an assertion is related to the formula tree that its indentation spells, by induction over the tree; an invariant keeps store and environment in step; refuted for arms with the same id and for blocks that store the object they write into.
* **C65 Evaluating a policy solves its equations** - model: PolicyRun (Blocks, Driver and Deps put together). Proof: an invariant over the demand recursion says that every block that has run still computes what stands at its property; a write only matters to expressions that read its name (C63), and those ran later. Two runs agree by induction over the log. Refuted for circles, `$root` and dotted properties.
* **C66 Decision tables in policies say what their rows say** - model: PTable. Specification (PTableSpec): every cell judged on its own in the given context, rows, which rows count, sources of a column. Proof: an invariant over the row loop (what has been taken, what is pending) with the cached field values and the scope left behind by earlier cells; the index is exact on cells that evaluate (IndexFacts); commit is flattened to a list of jobs, each of which comes out as it would have before the table wrote anything. Refuted for failing cells with an index, for partial writes, cells that read the table's own columns and two columns for one property.
* **C67 Removing what the hints about decision tables report changes nothing** - model: Lint. Specification (LintSpec): rows that ask less, tables without rows or a column, same effect of two tables on a store. Proof: exact characterisation of the reported rows; the row named by a hint is never reported itself, so any set of reported rows can go at once; the head of the sources of every column stays the same and C66 does the rest; for merged columns, groups with equal other cells have equal outputs and one row with an empty cell.
* **C68 Removing parentheses reported as redundant changes nothing** - model: ParenLint. Specification (ParenSpec): removing the pairs at chosen places, places in a tree, when a pair is unneeded (by tightness and grouping of the operators). Proof: the reported places are characterised by induction over the way to them; removal keeps the tree writable (canon of Print.v) by induction, so C18 reads it back; values do not depend on parentheses (fused member chains included) on contexts that are objects.
* **C69 The value of an expression has the type that the checker gives** - model: Infer (determine, one type and the list of messages for each node). Specification (InferSpec): fits of TypeSpec for values, parts of an expression with the scope each is checked in, the constructs covered, the errors that remain. Proof (InferFits, InferOps, InferFacts): membership of heap values in types, monotone in the heap; one lemma per operator, function and method; induction over the expression with an invariant for scopes (aliases and # point at values of their types) and for loops; the result has content because functions depend on content only. Arguments (ArgFacts): a table of the ways to call each function (`ways` in InferSpec), every accepted call of known types is one of them, and the functions of `sure` then give a value; methods give null or their type.
* **C70 A goal depends only on the inputs that are reported for it** - model: PGraph (graph of the blocks' reads and writes, search, checks of a request). Specification (NeedSpec): the relation 'depends' between paths, from what blocks read and write; 'present' in an input. Proof (NeedFacts): the search finds exactly the transitive closure (each step takes a node or drops an edge), a finite acyclic relation ends somewhere; (NeedRun, NeedClaims): the two-runs invariant of C65 with agreement on the paths that blocks in use read (C63) instead of agreement on everything; blocks that run are reachable.
* **C71 Renaming a global property changes nothing that expressions compute** - model: Rename (the walk that lists references, as an edit of the syntax tree; keys; texts of a JSON document). Specification (RenameSpec): replacement of a free name, `moved` contexts, texts at places. Proof (RenameFacts): the walk's scope knows exactly the aliases around (the invariant of C63), so the edit is the replacement; evaluation of both expressions related by induction over syntax; compilation is kept. For texts: C71_text (ParseSane).
* **C72 The conditional schema lists what a request needs, always or for the arms it selects** - model: Conditional. Specification (ConditionalSpec): what an arm depends on, the only discriminating block, what each group lists, guards; what an evaluation reads; arms that keep what they need to themselves. Proof: ConditionalFacts (the sets of the code are these), ConditionalRun (an evaluation depends only on what it reads, by the two-run argument of C70 restricted to the blocks and arms of the log), ConditionalClaims.
* **C73 A workspace answers from the documents in it, not from how they got there** - model: Workspace. Specification (WorkspaceSpec): the documents a history leaves, connected policies, what a graph sees, the one right answer of a question, well behaved histories. Proof: WorkspaceMaps (components are the classes of connected policies), WorkspaceFacts (invariant: every cached parse, rule list, unit and snapshot entry is what a fresh computation gives), WorkspaceGraphs (every cached analysis is right in every world that agrees with its recorded dependencies; induction on fuel and on the analyser's program), WorkspaceRun (histories).
* **C74 Writing a reported chain of conditionals as a match block changes nothing** - model: PreferMatch, Blocks. Specification (PreferSpec): chains, paths mentioned in an expression, the arms that say the same. Proof: induction on the chain; every evaluation in a later heap gives what it gives in the first one (BlocksFacts).
* **C75 A block of an entity computes for each instance what it computes for that instance alone** - model: Iterate, Blocks. Specification (IterateSpec): the store as an instance sees it is a new object with the entity's name standing for the instance; instances are different objects none of which contains another. Proof: induction on the instances with the invariant that only the cells of the instances done and new cells differ from the first heap; contexts with the same contents at the names read give the same outcomes (KeepLib). Results that are objects or arrays are left out of C75_each (they may contain the instance itself: C75_cyclic_refuted).
* **C76 The loader of a directory lists its decisions and loads what it lists** - model: Files. Specification (FilesSpec): walking down by names (`under`), names with slashes between them, keys that are not absolute and have no part `..`. Proof: joining text to a root continues the resolution from where the root leads; the walk with a stack is a permutation of the recursive listing (measure: entries still on the stack); keys are injective on paths of names.
* **C77 The older functions of dates read the clock of UTC** - model: OldDates. Specification: the readings, periods and zones of DateSpec, with the clock of a zone without offset. Proof: whole seconds between the first and the last instant of a period; the length of a month from the first days of two months; functions that do not look at the fraction of a second.
* **C78 Write conflicts are the properties that unconnected policies write** - model: Conflicts, on the snapshots of Workspace. Specification: documents left by a history and connection by imports (WorkspaceSpec). Proof: a policy's number is the first component that holds it, so numbers agree just for connected policies; grouping by path keeps every write; the snapshot invariant of C73.
* **C79 A search in a workspace finds, marks and ranks texts as it should** - model: Search. Specification: SearchSpec (words of a query, places of a document as an inductive relation, letters of a word in a text, order of hits), which uses only the data types of the model. Proof: induction over texts for the two ways to find a word; each collector is sound and complete for its places, and this is kept by concatenation; insertion sort by a total preorder.
* **C80 The hint of repeated derivations counts copies that are there, reports all of them and never nests** - model: Repeat. Specification: RepeatSpec (derivations by position: policy, block, expression, node; copies as lists of different positions). Proof: the loops give one event per position; the map groups the events by text; insertion sort by a total order on distinct texts does not depend on the order of the map; induction over the fragments for what is covered. C80_apart needs that what lies in a derivation has fewer operations, which the parser gives (spans are a parameter here).
* **C81 The type derived from a JSON schema holds every value the schema allows, and the reports on a schema name the right places** - model: Schema. Specification: SchemaSpec (validity of a value, places of a schema, what may be left out) and TypeSpec. Proof: induction on the schema; merging two types that are not both array or both object types keeps the values of both; the walks over items and properties find what holds at each place.
* **C82 The type derived from a TypeScript type holds every value of it** - model: TsType. Specification: TsSpec (the values of a type; what the claim needs) and TypeSpec. Proof: induction on the type; the merge lemma of C81 for unions, and for intersections: a value of two types is a value of the merged type.

## Findings

Statements one would expect of the code and that are refuted of the model (each by a theorem `..._refuted`), with the concrete behaviour:

* C04: `a = customer; a.name = 'x'` writes into the caller's `customer`; `a.self = a` makes a value that contains itself.
* C07: the memo of references returns stale values when a reference reads `$`, or after a local changed.
* C11: removing a missing path creates the objects on the way.
* C13/C14: merging an object with itself keeps null entries; in-place merging writes into shared objects, and merging a value with itself panics (double borrow).
* C16: dates come back as texts; a cyclic value never finishes.
* C17: tokens of template literals overlap, an unclosed template swallows text, nested templates end too early.
* C18: `a.in` and `{true: a}` are read, `a.true` and `{and: a}` are refused (C18_word_names_refuted).
* C20: `and`/`or` in cells have no precedence; a parenthesised comma list and closure bodies are read differently from expressions.
* C21/C22: `[1..5[` is accepted but means `[1..5]`; fractional ends are cut off before iterating.
* C25: `median([])` underflows and panics. C53: `bool('')` is true; `rand(-1)` panics. C51: `==` on equal arrays or objects is false.
* C28/C46: an output cell that reads `$` sees leftovers of earlier rows: tracing or the index change the result. Two nodes with one id share an index.
* C38: dependent dotted keys write into the input's objects; an entry `c: $` makes a cyclic result. C45: the clean-up also removes the user's own `$nodes`.
* C39: a failed load is asked again. C41: nested decisions of a compiled engine still use the live loader.
* C42: empty expressions, unclosed and single braces. C44: `1 2s` is twelve seconds, two terms in months or years overwrite each other.
* C43: merging is no upper bound with keys on one side or with nulls; satisfaction does not mean inclusion of values for dates, "any" and missing keys.
* C47: reading a whole entity does not wait for the blocks that compute its fields.
* C49: references inside the other keys of a reference stay. C50: an object starting with serde_json's number token is read as a number; fractions are cut
  off when written without `arbitrary_precision`.
* C56-C60: quarters of the 31st, days without midnight, 29 February plus years, ambiguous hours, comparisons across zones, offsets in texts.
* C61: required properties may be missing and any text passes for a date. C62: evaluation writes into the caller's nested objects, so that the same input
  fails its next check; references of entities held by other entities are checked but never resolved.
* C63: the dependency analysis never reports `$`; `(c ? (a = 1; 2) : 3) + a` reports only `c`; reads 32 closures deep are dropped.
* C64: arms of a match are looked up by id again when the value is written, so that of two arms with the same id the first one's value is taken; `customer.copy = customer` and `all = $root` make the store contain itself.
* C65: blocks that read each other run once and leave a store that does not satisfy them, without an error; what is read through `$root` is not waited for; `x = customer` shares the customer, so that `x` changes when a later block computes a field of the customer.
* C66: the index of a table of eight rows or more changes which tables fail: a field no row needs is evaluated, a broken cell in an excluded row is not; switching the trace on switches the index off, so that tracing changes the verdict. A failing table keeps what it has written. Output cells read the new values of the columns to their left. A cell of blanks only is not empty and fails the table.
* C67: "row n is unreachable" is also said of a row that supplies a column its upper row leaves empty: removing it nulls that column. "never changes the outcome" ignores that without the column an upper row holds in more cases and overtakes rows between it and its group. A cell of blanks is empty for the hint and an error at run time (Prop: C67_..._refuted).
* C68: `(a ?? !b) ?? c` and `(a * !b) * c` are reported although removing the pair gives `a ?? !(b ?? c)`; `[(]1..25[)]` is reported although `[]1..25[]` does not parse; `(a).b` fails on a context that is no object while `a.b` is null; after assignments `($root).a` and `$root.a` differ (Prop: C68_..._refuted).
* C69: expressions the strict checker accepts whose value is not of the type given: `1 / 0` (null, typed number), `true and x` and `+x` with x unknown, `filter([1..3], # > 1)` (array, typed interval), `flatMap([1], [1..2])`, `flatten([[1..2]])` (left as they are, typed numbers), `[{a: 1}, {b: 2}]` and `c ? {a: 1} : {b: 2}` (keys of both required), `[[x], [1]]` (typed numbers), `{a: 1, a: "s"}` (first value, last type), `{[x]: "s", a: 1}`, `d("no date").year()` (null), `merge(x)` of an empty array, `values(x)` of an object with further keys, `keys(x)` of an array, `x` under an unknown root (typed null). Accepted and always failing: `{} in [{}]`, `min(["a"])` (Prop: C69_..._refuted). `round(1, "a")` is accepted and fails: with overloads, arguments beyond the shorter signature are not compared (defs.rs zip). `["a".."b"]` is accepted and fails, because texts are taken for dates.
* C70: with `k = {x: age}` and `y = k.x + 1` the goal `k.x` is refused as missing input, although evaluating it would work; `a['b.c']` is reported as the path a.b.c, which is missing from `{a: {'b.c': true}}`; without goals a block that only an unchosen arm reads does not run, although its property is among the outputs (Prop: C70_..._refuted).
* C71: renaming x to y leaves `$root.x`; makes `sum(map([1] as x, x))` read y; `sum(map([1] as y, x))` and `x == y` are captured (the new name is never checked); `(true ? 3 : (x = 1; 2)) + x` is not renamed; renaming the property `date` of a data model turns every `"type": "date"` of the block into the new name; the key `order.total` keeps `order` when the property `order` is renamed (Prop: C71_..._refuted).
* C72: with `fee = match {card: rate, cash: 2}` and `total = fee + rate`, the schema lists `rate` for the variant card only, although the total always depends on it; the same if the arm without condition reads it; and a request for `total` that pays cash is refused without the input that is listed for card only (Prop: C72_elsewhere_refuted, C72_default_refuted, C72_enough_refuted). Also seen, not proved: an arm that reads `k.x` of a computed `k` is not taken to need what `k` needs; a discriminant `kind.x` counts as input although `kind` is computed.
* C73: graphs `g` and `h` that call each other: after asking about `g`, `h` shows `g` as recursive inside itself; asked first, it shows something else, although no document changed. A graph that calls policy `b` keeps its analysis when a new policy that imports `b` changes `b`'s unit, since only the members of the old unit were recorded. A graph analysed before `set_function_resolver` keeps its unknown function types, since their recorded state (0, unknown) is still valid (Prop: C73_cycle_refuted, C73_import_refuted, C73_resolver_refuted).
* C74: `name ? 1 : member ? 2 : 3` fails if `name` is a text; the match block that the hint suggests skips that arm and gives 2 (Prop: C74_truth_refuted).
* C75: `item.rank = len(filter(items, #.rank != null))` gives 0, 1, 2, ... : later instances see the results of earlier ones, so the result depends on the order of the collection (C75_siblings_refuted); `item.copy = item` makes the store cyclic (C75_cyclic_refuted).
* C76: `key_to_path` is `root.join(key)`: the keys `/etc/other.json` and `../secret.json` read files outside the root (C76_outside_refuted), so keys that come from requests or from imports in decisions must not be trusted; with root `""` keys load from the working directory while `keys` is empty (C76_empty_root_refuted).
* C77: `endOf(date, 'year')` sets the day to the length of the month of `date` and then the month to December: for 2023-02-10 it gives 2023-12-28 23:59:59, and a comparison with it is wrong for the last days of the year (C77_year_refuted: right just for dates in months with 31 days).
* C78: conflicts compare paths as texts: unconnected policies that write `user` and `user.name` are not reported (C78_inside_refuted).
* C79: letters of a word that stand close together are missed when an earlier letter draws the search away: `txr` does not find `amount of tax.rate` (C79_spelled_refuted). Cells of a rule with equal scores come in the order of a hash map, so that with a limit the same search can give different hits (C79_cells_refuted).
* C80: white space inside string literals is dropped as well, so `upper('a b')` and `upper('ab')` count as one derivation (C80_meaning_refuted). The message "n times across m policies" counts the policies of all copies, but leaves the copies inside a larger hint out of n, so that all n can be in one policy (C80_count_refuted).
* C81: a string with the format "date" gets the type of dates, which a JSON string is not (C81_date_refuted). A union of two object types gets the keys of both, each as required as in its own case, so a value of one case is not of the type (C81_cases_refuted). With cases beside a type, only the cases decide whether null is taken, so an optional property that refuses null can go unreported (C81_null_refuted).
* C82: `keyof T` gets the type of T (C82_keyof_refuted), `[...number[]]` the type of arrays of arrays (C82_rest_refuted), and a union of object types asks for the keys of all of them (C82_union_refuted).

## Wrong programs

`seeded/LOG.jsonl` has one line per deliberate bug put into a scratch copy of the model: the definition, the edit, the claim, the theorems
that failed, and the theorems added or tightened when none did.
