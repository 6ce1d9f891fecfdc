# A Rocq model of knowsys/nemo: design

## Layout

`rocq/theories/` holds, for each area of the code:

* `<Area>Model.v`: executable Gallina definitions, one per Rust function, each with the cited
  file and lines. No proofs.
* `<Area>Spec.v`: the vocabulary in which the property theorems are stated, written without the
  model's helpers (sets of facts, matches, derivations, cursors over lists, natural joins, ...).
* `<Area>Proofs*.v`: all lemmas.
* `<Area>Props.v`: the property theorems (`Cnn_...`), non-vacuity `Example`s with concrete
  non-trivial instances and `Print Assumptions` of every property theorem.

`_partial` marks a theorem that covers only part of the English property, `_refuted` a proof, with a
concrete witness, that the code violates the property as stated in some corner. `MANIFEST.json` lists
the theorems of each property (generated by `tools/manifest.py` from `tools/manifest_src.json`);
`seeded/LOG.jsonl` lists the wrong programs the theorems were tested against (`tools/mut.py`).

## General modelling rules

* `Vec` is `list`; `&mut self` methods return the new state; loops are structural recursion, or
  recursion on explicit fuel where running out of fuel yields an explicit error, and the theorems
  show that the error does not occur for enough fuel.
* `panic!`, failed `expect`/`unwrap`, slices out of bounds and (where compiled in) arithmetic overflow
  are explicit error values (`None` or `Panic`). A theorem that concludes `= Some ..`/`= Ok ..` says in
  particular that the code does not panic.
* Machine integers are `Z` with the wrap/overflow check written out where it matters (integer
  functions, columns, byte buffers, dictionaries), unbounded elsewhere.
* Hash maps are association lists or functions; where iteration order of a hash map can matter it is a
  parameter (any order), e.g. `C32_listing`, the groundings of traces (C15).
* Physical values are abstract where their structure does not matter: rows of the engine model are
  lists of `Z`, negative ones being nulls; rows of the trie model are lists of typed values.

## Trusted base

* Coq 8.16.1's kernel (`coqc`, `vm_compute`), and the standard library. No other library is used in a
  theorem. `Print Assumptions` is run for every property theorem in the `*Props.v` files and answers
  "Closed under the global context" for all of them: **no axioms**. (`vcheck` lists seven constants
  `Coq.ssr.ssrunder.Under_rel.*`: fields of a module type of the standard library's `ssreflect` support
  that is loaded indirectly with `Lia`/`Psatz`; no theorem depends on them.)
* The transcription of the Rust code into the `*Model.v` files, checked by reading and, indirectly,
  by the mutation experiments in `seeded/`.
* Behaviour of library code entering as specification: petgraph's `condensation` and `toposort`
  (`condensation_of` in StrategySpec.v: strongly connected components in topological order);
  `num-traits`/`std` integer operations (IntModel.v, from their documentation); hash maps; sorting.

## What is modelled, per area

| area | code | properties | left out / simplified |
|------|------|------------|-----------------------|
| Table* | `table_manager.rs`, step tables, merging, row ids | C01, C02, C33 | tables are sets of rows; database ids are list positions |
| Engine* | `execution_engine.rs`, `planning/strategy/forward/*`, `planning/operations/*` | C03, C07-C12, C14 | plan nodes are the tables they denote (the physical operators are the subject of C19-C25); expressions are partial functions of their variables (C26); import atoms in bodies and I/O are not modelled; time limits not modelled |
| Strategy* | `selection_strategy/*`, `labeled_graph.rs` | C04-C06 | petgraph by specification |
| Perm* | `util/mapping/*` | C16 | |
| Int* | `function/definitions/numeric/integer64.rs` | C27 | |
| Expr* | `function/tree.rs`, `function/evaluation.rs`, `tabular/operations/{filter,function}.rs` | C26, C34-C36 | floating point operations are arbitrary functions; string and casting functions are not modelled here |
| Column* | `columnar/column/*`, `columnbuilder/*`, `columnscan.rs` | C17, C18 | floats by their rank in the total order; at most 2^48 values |
| Scan* | `columnar/operations/*` | C19-C21, C37 | sub scans are owned, not shared through `UnsafeCell`; parameters of dynamic filters are read at each request |
| Trie* | `tuple_buffer.rs`, `sorted_tuple_buffer.rs`, `trie.rs`, `intervalcolumn.rs`, `triescan.rs`, `rowscan.rs` | C22 | columns of a trie are lists with the cursor specification proved in C17/C18 |
| Op*, Proj*, Agg* | `tabular/operations/{join,union,subtract,projectreorder,prune,aggregate}.rs`, parts of `database.rs` | C23-C25 | operations borrow the states of their inputs per request; dependents are computed after the rows are collected; an empty result may be stored with another arity (`holds`); `prune` only as a full scan |
| Buffer*, BytesDict*, Dict* | `dictionary/*` | C28, C29 | buffer operations are atomic (raw memory and the lock are not modelled); floats by their bits; marks (`mark_str`) omitted; the value dictionary is proved over the specification of byte dictionaries, proved in C28_bytes; size hypotheses `fits`/`room` |
| Order* | `analysis/variable_order.rs` | C32 | import atoms; generated names are assumed new |
| Norm* | `rule_model/components/{rule,literal,term}*.rs` validation, `planning/normalization/*` | C13, and C07/C08 for source programs | imports in bodies, global variables, display attributes, arity and value type checks, ground operations; hypotheses `supported`, `well_named` |
| Lex* | `datavalues/{any_datavalue,integer_datavalues,float_datavalues,boolean_datavalue,lang_string_datavalue,other_datavalue,datavalue}.rs` | C30, C38 | nulls, tuples and maps; f32/f64 parsing, printing and comparison are parameters with the laws `good_floats`; integer parsing of the standard library is modelled from its source |
| Dsv* | `io/formats/dsv/{reader,writer,value_format}.rs`, `dsv.rs`, `quote_string` and `canonical_string` | C31 | the crate `csv` is not in the repository: its record reader and writer are modelled from its documentation; text that is not UTF-8, import patterns, nulls, tuples and maps are left out |
| Store* | `management/database/{order,storage}.rs`, `management/util.rs`, tables of `management/database.rs`, `TableManager::add_reference` | C39 | names, sizes in bytes and the dictionary are left out; a source is the rows it writes or an error; hash maps are iterated in any order (a parameter) |
| Plan* | `management/execution_plan.rs`, `database/execution_series.rs`, `execute_plan`, `execute_first_match` and their helpers in `management/database.rs`, `OperationTable::align` | C40 | plans of fetched tables, joins, unions, differences, projections and renamings; filters, functions, nulls, aggregates, singletons and imports are left out; nodes are numbers in a list |
| Text* | `function/definitions/string.rs`, `function/definitions/language.rs` | C41 | segmentation into characters, case mapping, Levenshtein distance and regular expressions are parameters; the crates urlencoding and lru are modelled from their documentation |
| Cast* | `function/definitions/casting.rs`, `checktype.rs`, `boolean.rs`, parts of `generic.rs` | C42 | conversions of floating-point numbers are parameters; `from_str_radix` and slices of strings from the standard library's documentation |
| FilterImp* | `rule_model/pipeline/transformations/filter_imports.rs`, `normalization/rule.rs` (`into_filter_transform_pattern`), `tabular/filters.rs`, the filtering and transforming part of `tuple_buffer.rs`, `dsv/reader.rs` (records) | C43 | programs without parameters and import literals; value formats are partial functions on numbered fields; inlining of computed values is modelled by evaluating them in order |
| Pipe* | `rule_model/pipeline/transformations/{normalize,global,exports,set_default_outputs,active,default}.rs`, `rule_model/programs.rs` (predicate sets, `validate_parameters`) | C44-C47 | statements are grouped by kind; not modelled: names and display attributes of rules, global variables in attributes of imports and exports, validations other than those of rules and parameters |
| Parse* | `parser/ast/{expression.rs, expression/complex/{arithmetic,parenthesized,operation,atom,tuple,infix}.rs, expression/basic/{number,variable,boolean,constant}.rs, sequence.rs, comment/*.rs, token.rs, tag/*.rs}` | C48 | on lists of characters (ASCII); combinators of nom 7 as functions; recursion depth = length of the text, proved sufficient; not modelled: strings, RDF literals, blank nodes, encoded numbers, aggregates, maps, negation, format strings, error messages and positions |
| NumLit* | `parser/ast/expression/basic/{number,enc_number}.rs`, `rule_model/translation/basic/{number,enc_number}.rs` | C49 | floating point values as the exact decimal they are nearest to, with the limits of overflow; rounding not modelled |
| PrintTerm* | Display of `components/term{,/operation,/function,/tuple,/primitive/variable/*}.rs`, `operation_kind.rs` (precedence, names), `iri_datavalue.rs`, `integer_datavalues.rs`, `translation/{term,complex/*,basic/*}.rs` | C50 | no maps, aggregates, strings, floating point and RDF literals; translation without base and prefixes |
| Inline* | `pipeline/transformations/incremental.rs` | C51 | query results are given as a table per import; no existential variables and aggregates; import statements whose parameters do not form a valid import are not modelled |
| Query* | `io/formats/sparql/queries.rs` | C52 | SPARQL algebra with sets of solutions, values are numbers; no services, grouping, ordering, slices, paths are tables; of the expressions: equality, BOUND, NOT, AND, EXISTS |
| RuleMerge* | `merge_sparql.rs`, `import_export.rs` (try_merge, push_constants), `clause.rs` | C53 | arguments of atoms are variables; other parameters of imports are left out; uses the model of queries |
| Page* | `io/formats/sparql/reader.rs` (bindings, pages), `datasources/bindings.rs` | C54 | HTTP answers are an oracle: rows, status 413, or another error; parsing of the answers is left out; the length of queries is an arbitrary function; uses the model of queries |
| Request* | `execution/planning/operations/import.rs` | C55 | tables are sets of rows of natural numbers kept per pattern (C55_names: per name); all imports of a predicate have the same handler; what an import delivers for bindings is an assumption that C54 justifies |
| Stage* | `execution/planning/strategy/forward/body.rs`, `operations/join_cartesian.rs`, `join_imports*.rs`, `function_filter_negation.rs` | C56 | uses EngineModel's joins, functions, filters and negation; the rows imported for given tables of the factors are a parameter, assumed to be rows of the source and to include those that agree with the factors (C54, C55); merging of output tables is not modelled |
| PrintValue* | `nemo-physical/src/datavalues/*` (Display), `nemo/src/parser/ast/expression/basic/{blank,boolean,constant,iri,rdf_literal,string}.rs`, `tag/structure.rs`, `rule_model/translation/basic/*` | C57 | uses LexModel's values and `new_from_typed_literal`; the alternatives of the parser for numbers, encoded numbers and variables (which cannot begin such a text) are left out; tuples, maps, floating point numbers not modelled |
| Fstring* | `nemo/src/parser/ast/expression/complex/fstring.rs`, `token.rs` (419-511), `rule_model/translation/complex/fstring.rs` | C58 | uses ParseModel's combinators and expressions, TextModel's concatenation and CastModel's STR; evaluation of the expressions is a parameter; positions of tokens not modelled; ASCII |
| Json* | `nemo/src/io/formats/json/reader.rs` | C59 | starts with serde_json's value; triples as a list (no filter patterns, no dictionary); floating point numbers are a parameter; ids not bounded by u64 |
| Bitset* | `nemo-physical/src/util/bitset.rs`, `nemo-physical/src/datatypes/storage_type_name.rs` | C60 | words as natural numbers below 2^w; overflowing shifts and subtractions are panics |
| Trace* | `execution_engine/tracing/simple.rs`, `tracing/trace.rs`, `strategy/tracing.rs` | C15 | parser of facts, statistics, caching of rule names |

## Per-property plan

| id | model | proof |
|----|-------|-------|
| C01 | `SubtableHandler` (table_manager.rs): single, combined, normalize_range, add_combined_table, cover_range | invariant "every combined table's content is the union of the singles in its range", induction on the cover loop, incl. termination |
| C02 | combine_tables/combine_predicate/defrag (table_manager.rs, execution_engine.rs) | refinement: contents by range unchanged by any sequence of operations |
| C03 | join_seminaive.rs variant generation and range reads | combinatorial: the first atom (from the right) that is new identifies the variant |
| C04 | strategy_round_robin.rs as state machine driven by derivation reports | invariant over report histories |
| C05 | strategy_graph.rs over an ordered list of components | invariant over report histories plus topological order |
| C06 | labeled_graph.rs stratify; strategy_stratified_negation.rs graph construction | graph induction |
| C07-C09 | engine loop: forward strategy, semi-naive, duplicates subtraction, step tables, strategies | invariant on reachable states; final-state theorem |
| C10-C12 | strategy/forward/restricted.rs, restricted nulls, satisfied tables | invariant; violations as `_refuted` |
| C13 | validation and normalization of rules | equivalence of match relations, correspondence of derivations |
| C14 | function.rs, filter.rs, negation.rs generators | induction on the scheduling loop |
| C15 | tracing/simple.rs trace_recursive on step tables | induction on the step; memo table invariant |
| C16 | util/mapping/permutation.rs | algebra |
| C17-C18 | column/vector.rs, column/rle.rs, columnbuilder/adaptive.rs, columnscan.rs | refinement to a list and a cursor |
| C19-C21, C37 | columnar/operations | cursor refinement, set semantics |
| C22 | tuple_buffer/sorted_tuple_buffer, trie.rs, intervalcolumn.rs | round trip between trie levels and the sorted row list |
| C23 | tabular/operations/{join,union,subtract}.rs | induction on layers, using C19-C21 |
| C24 | tabular/operations/projectreorder.rs | set equality |
| C25 | tabular/operations/{prune,aggregate}.rs, aggregates/processors | fold invariants |
| C26, C34-C36 | function/tree.rs, function/evaluation.rs, filter.rs, function.rs | compiler correctness |
| C27 | function/definitions/numeric/integer64.rs | case analysis against `Z` |
| C28 | dictionaries | refinement to an injective partial map |
| C29 | dictionary/bytes_buffer.rs | invariant over operation histories |
| C30 | any_datavalue.rs parsing and canonical strings | round trip |
| C31 | dsv reader/writer, value_format.rs | round trip |
| C32 | analysis/variable_order.rs | permutation invariant of the construction loop |
| C33 | table_manager.rs row ids | injectivity on step tables; refuted in general |
| C38 | any_datavalue.rs, datavalue.rs order of values | case analysis on kinds |
| C39 | database/order.rs, storage.rs, util.rs, database.rs | invariant of histories; C24_reorder for copies in other orders |
| C40 | execution_plan.rs, execution_series.rs, database.rs | finalize yields a series of trees that mean what their nodes mean (induction over ranks), cutting and sharing are sound for the columns that are read, execution by C22-C24 and C39 |
| C41 | string.rs, language.rs | each function against lists of characters (occurrence, position sets), UTF-8 and percent-encoding round trips by induction, invariant of the cache over all call sequences |
| C42 | casting.rs, checktype.rs, boolean.rs, generic.rs | parsing against positional literals by induction with overflow as monotonicity, case analysis on values |
| C43 | filter_imports.rs, rule.rs, filters.rs, tuple_buffer.rs, reader.rs | rows of the transformed import = instances of the rule (by the correctness of normalization, C13), then induction on derivations; perfect models by extensionality in the predicates of bodies |
| C44 | active.rs, default.rs | inductive `needed` relation = fixpoint of the loop (termination by counting); derivations of needed predicates only use needed statements; composition with C46, C47 for the pipeline |
| C45 | exports.rs, set_default_outputs.rs | exact characterization of the resulting lists; comparison with the documentation, with counterexamples |
| C46 | normalize.rs | relation between a rule and its split form, matches extended to the fresh variables and back, induction on derivations |
| C47 | global.rs, programs.rs | invariant of the substitution (closed terms with the value of the variable); fixpoint = well-founded definitions; simulation of derivations |
| C48 | parser of expressions | the grammar as an inductive relation between terms and texts; completeness by induction on the length of the text for all levels at once (with: a text is a sum with an operator or `Arithmetic::parse` fails on it); soundness by induction on the depth; fuel by lengths |
| C49 | number literals | numerals as an inductive relation; checked accumulation = exact value if that fits (induction on the text with the accumulator) |
| C50 | printed terms are read back | the printed text `writes` (specification of C48) the term regrouped to the left, by induction on terms with a statement for texts after an operator; regrouping = relation over the sequence of operands; fixed points by size |
| C51 | imports moved into rules | derivations relative to the negated facts, so stable models; forward: the valuation is extended by the values of the computed terms; backward: the equalities give the values of the atom; restriction of atoms by an invariant of the two loops and monotonicity |
| C52 | merged SPARQL queries | renaming by an injective map carries solutions over (induction on patterns and expressions); the map made by standardize_variables is injective on all variables; merged solutions are compatible exactly if the joined columns agree |
| C53 | merged imports of a rule | merged import holds exactly if all imports hold (induction on the imports, from C52); dropped equalities are restored by changing the assignment at variables with constants |
| C54 | imports with bindings | pages cover the combinations (sorting is a permutation, chunks cover lists); induction on nested calls with an invariant on the pages and their queries; rows of each query by C52_bindings |
| C55 | requests of rules with imports | invariant over the history: for every product of patterns, rows whose bindings are all in the tables have been imported; patterns of an entry read the values of its variables (positions of bound variables, sorted subsets) |
| C56 | bodies of rules with imports | plans are evaluated symbolically: the set of valuations of each stage is characterised (functions, filters and negation of a stage use exactly the operations over its variables), then the stages together are compared to the rule; for several factors, each match agrees with the tables of the factors at some application in the history, so that its imported rows have been requested; counterexamples are computed |
| C57 | printed constants can be read back | the parser is run symbolically on the printed text followed by any delimiter; escaping is an inductive relation; for unreadable constants the content that is read is shown to differ; counterexamples are computed |
| C58 | format strings stand for the concatenation of their parts | an inductive relation writes the content; both tokens are shown to take the text up to the first end; reading by induction on the length of the text, soundness by induction on the repetition, values by induction on the elements |
| C59 | imported JSON documents are described completely by their triples | invariant of the loop over the stack (distinct ids below the counter; triples of different nodes do not interfere); reading back by induction on the size of the document |
| C60 | sets of storage types behave as sets | a word is the set of its binary digits; bitwise extensionality |

## Hypotheses that are not facts about the code

* `wf_program` (EngineSpec.v) is what validation, normalization and the variable orders are supposed
  to establish. `C13_program_partial` and `C32_orders` prove that they do for every source program that
  satisfies `supported`; for each condition of `supported` that validation does not enforce, a
  `C13_*_refuted` theorem exhibits an accepted rule for which the claim fails.
* Stratification (`ranked`) is established by C06 for accepted programs.
* Size bounds (`room`, `fits`, 2^48): resource limits, not logic.
