{"id": "C01", "title": "Step-range reads return exactly the facts of those steps", "statement": "For a predicate whose facts are stored per execution step, asking for all tables in a range of steps yields tables whose union is exactly the set of facts stored in steps inside that range, no matter which merged tables have been created before; the lookup always terminates.", "quantifier": "all sequences of added step tables and merges, all step ranges", "why_tests_cant": "The set of merge histories and query ranges is unbounded and the covering loop can move backwards; tests only sample a few layouts.", "anchors": ["nemo/src/table_manager.rs: SubtableHandler::normalize_range, cover_range, add_combined_table, add_single_table"]}
{"id": "C02", "title": "Periodic merging never changes what a predicate contains", "statement": "Merging the step tables of a predicate (every 8 updates, or on demand before output) changes neither the set of facts of the predicate nor the set of facts visible in any step range, for any predicate.", "quantifier": "all engine histories, all predicates, all ranges", "why_tests_cant": "Requires every interleaving of updates, merges and reads.", "anchors": ["nemo/src/execution/execution_engine.rs: defrag", "nemo/src/table_manager.rs: combine_tables, combine_predicate"]}
{"id": "C03", "title": "Semi-naive evaluation loses no rule match", "statement": "When a rule is applied at step c after having last been applied at step l, the union of the semi-naive variants contains every body match over facts of steps < c that uses at least one fact of a step in [l,c), and nothing that is not a body match; in particular matches found at earlier applications together with this one give all matches.", "quantifier": "all rule bodies (any number of atoms, self joins), all step-indexed databases, all pairs of steps", "why_tests_cant": "Quantifies over all databases, rules and step histories.", "anchors": ["nemo/src/execution/planning/operations/join_seminaive.rs", "nemo/src/execution/planning/operations/union.rs: UnionRange::as_range"]}
{"id": "C04", "title": "Round-robin rule selection stops exactly when nothing is left to do", "statement": "The round-robin selection always returns a valid rule index, never stops while some rule has not been reported to derive nothing since the last reported derivation, and when it stops every rule was applied without new derivations after the last new derivation.", "quantifier": "all rule counts, all self-recursion patterns, all histories of derivation reports", "why_tests_cant": "All unbounded feedback histories.", "anchors": ["nemo/src/execution/selection_strategy/strategy_round_robin.rs"]}
{"id": "C05", "title": "Component-wise rule selection respects dependencies", "statement": "With the dependency-graph strategy, rules are run component by component so that once a component is finished no later rule can derive a fact for a predicate used positively by a rule of that component.", "quantifier": "all programs and derivation histories", "why_tests_cant": "All rule graphs and all histories.", "anchors": ["nemo/src/execution/selection_strategy/strategy_graph.rs", "nemo/src/execution/selection_strategy/dependency_graph/graph_positive.rs"]}
{"id": "C06", "title": "Stratification is correct and rejects exactly non-stratifiable programs", "statement": "A program is rejected as non-stratified iff some cycle of rule dependencies contains a negative (or aggregate) dependency; otherwise every rule is placed in exactly one stratum, a rule that derives a predicate used under negation or aggregation by another rule is in a strictly lower stratum, and one that derives a predicate used positively is in a lower or equal stratum.", "quantifier": "all programs (finite rule graphs with positive and negative edges)", "why_tests_cant": "All graphs; tests sample a handful.", "anchors": ["nemo/src/util/labeled_graph.rs: stratify", "nemo/src/execution/selection_strategy/strategy_stratified_negation.rs: build_graph"]}
{"id": "C07", "title": "Soundness of materialization", "statement": "Every fact in the result of executing a program was given as input or is derivable: it is the instance of a head atom of a rule whose positive body atoms hold, whose filters evaluate to true and whose negated atoms do not hold in the final result.", "quantifier": "all stratified programs, all input databases, all executions (any fair rule order)", "why_tests_cant": "Requires induction over unbounded chase sequences.", "anchors": ["nemo/src/execution/execution_engine.rs: execute, step", "nemo/src/execution/planning/strategy/forward.rs"]}
{"id": "C08", "title": "Completeness of materialization", "statement": "When execution of a program without existential variables stops, the result is closed under all rules: every rule instance whose body holds in the result has all its head atoms in the result. Together with soundness the result is the unique perfect (stratified) model, independent of rule order and step numbering.", "quantifier": "all stratified existential-free programs and databases, all executions that terminate", "why_tests_cant": "Fixpoint property over unbounded executions.", "anchors": ["nemo/src/execution/execution_engine.rs: execute", "nemo/src/execution/selection_strategy", "nemo/src/execution/planning/strategy/forward/head.rs"]}
{"id": "C09", "title": "Each fact is stored once, in the step it was first derived", "statement": "In every reachable engine state a fact of a predicate without existential heads occurs in exactly one step table; re-deriving it never adds a second copy, so per-predicate fact counts are the number of distinct facts.", "quantifier": "all reachable engine states", "why_tests_cant": "All histories of rule applications.", "anchors": ["nemo/src/execution/planning/operations/duplicates.rs", "nemo/src/table_manager.rs: count_rows_in_memory_for_predicate, find_table_row"]}
{"id": "C10", "title": "Existential rules are satisfied when execution stops", "statement": "When execution of a program with existential rules terminates, for every body match of such a rule there are values for its existential variables for which all head atoms are in the result.", "quantifier": "all programs with existential rules, all terminating executions", "why_tests_cant": "Model property over unbounded chase sequences and null generation.", "anchors": ["nemo/src/execution/planning/strategy/forward/restricted.rs", "nemo/src/execution/planning/operations/restricted_head.rs, restricted_null.rs"]}
{"id": "C11", "title": "Restricted chase: no nulls for already satisfied matches", "statement": "A rule application invents new values for a body match only if the head is not already satisfied for that match by facts present before the step.", "quantifier": "all programs with existential rules, all reachable states", "why_tests_cant": "Depends on the interplay of seminaive bookkeeping over arbitrary histories.", "anchors": ["nemo/src/execution/planning/operations/restricted_head.rs: apply_optimization", "nemo/src/execution/planning/strategy/forward/restricted.rs", "nemo-physical/src/management/database.rs: execute_plan"]}
{"id": "C12", "title": "Invented nulls are fresh", "statement": "Every null invented by a rule application differs from every value that existed before and from every other null invented in the same application, except that the same existential variable gets the same null in all head atoms for one match.", "quantifier": "all databases, all dictionary histories", "why_tests_cant": "All interleavings of value insertions and null creations.", "anchors": ["nemo-physical/src/tabular/operations/null.rs", "nemo-physical/src/dictionary/null_dv_dict.rs"]}
{"id": "C13", "title": "Validated rules keep their meaning through normalization", "statement": "A rule accepted by validation is normalized without panicking, and replacing constants, repeated variables, anonymous variables and operations in body and head atoms by fresh variables plus assignments yields a rule with exactly the same matches on the original variables over every database; the normalized program has the same derivable facts and the same models as the source program. Where validation accepts a rule for which this fails, a witness is given.", "quantifier": "all source programs and rules, all databases, all valuations", "why_tests_cant": "All rules and databases.", "anchors": ["nemo/src/execution/planning/normalization/atom/body.rs", "nemo/src/execution/planning/normalization/atom/head.rs", "nemo/src/execution/planning/normalization/rule.rs normalize_rule", "nemo/src/execution/planning/normalization/program.rs normalize_program", "nemo/src/rule_model/components/rule.rs validate, safe_variables"]}
{"id": "C14", "title": "Function and filter scheduling evaluates every operation once, in dependency order", "statement": "Splitting the operations of a rule into assignments and filters uses each operation exactly once, only evaluates an assignment after all its input variables are bound, never rebinds a bound variable and leaves unused exactly the operations whose variables cannot be bound.", "quantifier": "all lists of operations and sets of bound variables", "why_tests_cant": "All operation lists.", "anchors": ["nemo/src/execution/planning/operations/function.rs", "nemo/src/execution/planning/operations/filter.rs"]}
{"id": "C15", "title": "Traces are valid derivations", "statement": "A trace returned for a fact is a finite derivation tree whose leaves are input facts, whose inner nodes are correct rule applications over facts of strictly earlier steps, and a trace is found for every derived fact.", "quantifier": "all programs, databases and derived facts", "why_tests_cant": "All derivation histories.", "anchors": ["nemo/src/execution/execution_engine/tracing/simple.rs", "nemo/src/execution/tracing/trace.rs"]}
{"id": "C16", "title": "Column orders (permutations) obey their algebra", "statement": "Building a permutation from a vector or map, inverting, chaining and applying it obey the group laws: permute is undone by the inverse, chaining composes, equality is extensional equality of the mapping.", "quantifier": "all permutations and vectors", "why_tests_cant": "All sizes and permutations.", "anchors": ["nemo-physical/src/util/mapping/permutation.rs"]}
{"id": "C17", "title": "Compressed columns return the values that were put in", "statement": "A column built by the (adaptive / run-length) column builder from any sequence of values has that length, returns the i-th value at index i, and iterating over it yields exactly the sequence.", "quantifier": "all sequences of integers of the supported widths, including extreme values", "why_tests_cant": "All value sequences, overflow boundaries of step computations.", "anchors": ["nemo-physical/src/columnar/column/rle.rs", "nemo-physical/src/columnar/columnbuilder/rle.rs", "nemo-physical/src/columnar/columnbuilder/adaptive.rs", "nemo-physical/src/datatypes/run_length_encodable.rs"]}
{"id": "C18", "title": "Column seek contract", "statement": "On a sorted range, seek(v) moves to the first not-yet-passed position whose value is at least v and returns it, or returns nothing iff there is none; mixing next/seek/narrow/reset in any order never skips or repeats values.", "quantifier": "all sorted columns, all narrowings, all operation sequences", "why_tests_cant": "All operation histories.", "anchors": ["nemo-physical/src/columnar/column/vector.rs: ColumnScanVector", "nemo-physical/src/columnar/column/rle.rs: ColumnScanRle"]}
{"id": "C19", "title": "Join of sorted columns is intersection", "statement": "Iterating the join of any number of sorted columns yields exactly the values present in all of them, in increasing order, for any mix of next and seek.", "quantifier": "all lists of strictly sorted columns", "why_tests_cant": "All inputs, leapfrog termination.", "anchors": ["nemo-physical/src/columnar/operations/join.rs"]}
{"id": "C20", "title": "Union of sorted columns is set union and reports the right sources", "statement": "Iterating the union of sorted columns yields exactly the values present in at least one active column, each once, increasing, and the list of smallest scans names exactly the columns that contain the current value.", "quantifier": "all lists of strictly sorted columns and active sets", "why_tests_cant": "All inputs.", "anchors": ["nemo-physical/src/columnar/operations/union.rs"]}
{"id": "C21", "title": "Difference of sorted columns removes exactly the subtracted values", "statement": "Iterating the subtract scan yields exactly the main values not contained in any active subtracted column and reports for every follower whether it points at the same value.", "quantifier": "all main/follower columns and active sets", "why_tests_cant": "All inputs.", "anchors": ["nemo-physical/src/columnar/operations/subtract.rs"]}
{"id": "C22", "title": "Tables store a sorted duplicate-free set of rows", "statement": "Writing any multiset of rows and reading the table back yields exactly the distinct rows, in sorted order; membership and row position queries agree with this list.", "quantifier": "all multisets of rows of any arity and mixed storage types", "why_tests_cant": "All row sets.", "anchors": ["nemo-physical/src/tabular/trie.rs", "nemo-physical/src/tabular/buffer/tuple_buffer.rs", "nemo-physical/src/tabular/buffer/sorted_tuple_buffer.rs"]}
{"id": "C23", "title": "Table join is the natural join", "statement": "The join of tables whose columns are labelled with variables yields exactly the assignments of the variables for which the projection to each input's variables is a row of that input.", "quantifier": "all input tables and compatible column labellings", "why_tests_cant": "All tables and labellings.", "anchors": ["nemo-physical/src/tabular/operations/join.rs"]}
{"id": "C24", "title": "Projection/reordering keeps exactly the projected rows", "statement": "Projecting and reordering a table yields the set of projected rows without duplicates, for every mapping of output to input columns.", "quantifier": "all tables, all projections/permutations", "why_tests_cant": "All tables and mappings.", "anchors": ["nemo-physical/src/tabular/operations/projectreorder.rs"]}
{"id": "C25", "title": "Aggregates are computed per group over distinct values", "statement": "For every group of equal group-by values the aggregate output is count/sum/min/max over the distinct combinations of aggregated and distinct variables of that group, one output row per non-empty group.", "quantifier": "all tables, groupings and aggregate kinds", "why_tests_cant": "All tables.", "anchors": ["nemo-physical/src/tabular/operations/aggregate.rs", "nemo-physical/src/aggregates/processors"]}
{"id": "C26", "title": "Compiled expressions compute the expression", "statement": "Evaluating the compiled stack form of an expression on given column values yields exactly the recursive evaluation of the expression, is undefined iff some subexpression is undefined, and never panics for a compiled expression.", "quantifier": "all expression trees and inputs", "why_tests_cant": "All trees.", "anchors": ["nemo-physical/src/function/evaluation.rs", "nemo-physical/src/function/tree.rs"]}
{"id": "C27", "title": "Integer arithmetic is exact or undefined", "statement": "Every arithmetic operation on 64-bit integers either returns the mathematically correct result or no value; it never wraps around and never panics.", "quantifier": "all pairs of 64-bit integers", "why_tests_cant": "2^128 inputs; boundaries are easy to miss.", "anchors": ["nemo-physical/src/function/definitions/numeric/integer64.rs"]}
{"id": "C28", "title": "Value dictionary is a stable bijection", "statement": "Looking up the id of a value after adding it returns its id, the id maps back to the value, equal values get equal ids and different values different ids, and ids never change when more values are added.", "quantifier": "all sequences of insertions over all value kinds", "why_tests_cant": "All insertion histories, block allocation across sub-dictionaries.", "anchors": ["nemo-physical/src/dictionary/meta_dv_dict.rs", "nemo-physical/src/dictionary/bytes_dictionary.rs", "nemo-physical/src/dictionary/ranked_pair_dictionary.rs"]}
{"id": "C29", "title": "Byte buffer returns what was stored", "statement": "Bytes pushed to the shared paged buffer are returned unchanged by their reference until their buffer is dropped, whatever other buffers push or drop meanwhile.", "quantifier": "all interleavings of init/push/drop on all buffers, all sizes below the limits", "why_tests_cant": "All histories; address packing boundaries.", "anchors": ["nemo-physical/src/dictionary/bytes_buffer.rs"]}
{"id": "C30", "title": "Lexical forms are canonicalised consistently", "statement": "Parsing a typed literal and printing its canonical form yields a literal that parses to the same value; two literals of the same value get equal data values.", "quantifier": "all lexical forms and datatypes handled", "why_tests_cant": "All strings.", "anchors": ["nemo-physical/src/datavalues/any_datavalue.rs", "nemo-physical/src/datavalues/integer_datavalues.rs"]}
{"id": "C31", "title": "Delimiter-separated export can be read back", "statement": "Writing a table of values as CSV and importing the written text with the same format gives back the same rows.", "quantifier": "all tables of supported values, including quotes, delimiters and newlines in strings", "why_tests_cant": "All strings.", "anchors": ["nemo/src/io/formats/dsv/writer.rs", "nemo/src/io/formats/dsv/value_format.rs", "nemo/src/io/formats/dsv/reader.rs"]}
{"id": "C32", "title": "Variable orders are complete", "statement": "The variable order computed for a rule contains every variable of the rule exactly once, so every join plan covers all variables.", "quantifier": "all rules and heuristics outcomes", "why_tests_cant": "All rule shapes.", "anchors": ["nemo/src/execution/planning/analysis/variable_order.rs"]}
{"id": "C33", "title": "Fact ids identify facts", "statement": "The id reported for a fact of a predicate leads back to exactly that fact, every stored fact has an id, different facts have different ids, and the step reported for a fact is the first step at which it was stored.", "quantifier": "all histories of storing and merging tables, all predicates and facts", "why_tests_cant": "depends on the interleaving of steps and merges and on the number of rows in every step table", "anchors": ["nemo/src/table_manager.rs: TableManager::table_row_id, row_by_id, find_table_row"]}
{"id": "C34", "title": "Announced column types cover the computed values", "statement": "When the engine computes an expression over columns whose possible storage types are known, the storage type of every value the expression takes is among the types announced for the result, so that no result is lost when the result column is scanned.", "quantifier": "all expression trees, all announced input types and all input rows of these types", "why_tests_cant": "All trees and mixtures of types.", "anchors": ["nemo-physical/src/function/evaluation.rs:type_propagation", "nemo-physical/src/function/definitions.rs:FunctionTypePropagation", "nemo-physical/src/datavalues/datavalue.rs:storage_type"]}
{"id": "C35", "title": "Filters keep exactly the satisfying rows", "statement": "Applying a list of filter expressions to a table keeps a row iff every filter evaluates to true on it; a filter that is undefined on a row removes the row; the order of the filters and the columns they mention do not matter.", "quantifier": "all tables, all filter lists over their columns, all rows", "why_tests_cant": "All filters and rows.", "anchors": ["nemo-physical/src/tabular/operations/filter.rs:GeneratorFilter", "nemo-physical/src/function/tree.rs:special_filter"]}
{"id": "C36", "title": "Computed columns hold the value of their expression", "statement": "Extending a table by computed columns, whose expressions may use input columns and previously computed columns, produces for each row the row extended by the values of the expressions, and drops the row iff one of them is undefined.", "quantifier": "all output column orders, all assignments of expressions to columns, all rows", "why_tests_cant": "All assignments and rows.", "anchors": ["nemo-physical/src/tabular/operations/function.rs:GeneratorFunction", "nemo-physical/src/function/tree.rs:special_function"]}
{"id": "C37", "title": "Filtering, constant and pass-through scans list the right values", "statement": "A scan restricted by a filter expression lists exactly the values that satisfy it, a scan restricted to a constant lists the constant iff the underlying column contains it, a constant scan lists its constant, each in order and for any mix of next and seek, and current always returns the value last returned.", "quantifier": "all underlying scans, filters and request sequences", "why_tests_cant": "All request histories; scans nest arbitrarily.", "anchors": ["nemo-physical/src/columnar/operations/filter.rs", "nemo-physical/src/columnar/operations/filter_constant.rs", "nemo-physical/src/columnar/operations/constant.rs", "nemo-physical/src/columnar/operations/pass.rs"]}
{"id": "C38", "title": "Data values are totally ordered", "statement": "Comparing two data values never fails; the order is total and transitive, two values compare as equal exactly if they are equal, and integers are ordered by their numeric value whatever their internal representation.", "quantifier": "all pairs and triples of data values", "why_tests_cant": "All values of all domains.", "anchors": ["nemo-physical/src/datavalues/any_datavalue.rs (Ord for AnyDataValue)", "nemo-physical/src/datavalues/datavalue.rs (relative_domain_position)"]}
{"id": "C39", "title": "A stored table can be read in every column order", "statement": "After any history of registering tables (from tries or sources, stored in any column order), registering references, reading tables in any column orders, and deleting everything after some earlier point, reading a table with its columns in any order yields exactly the rows with which it was registered, rearranged; a reference yields the rows of its table rearranged by its permutation; deleting restores the earlier state of the database for all earlier tables; row tests, row positions and row counts agree with the rows.", "quantifier": "all histories of calls, all tables, all column orders and permutations, all iteration orders of hash maps", "why_tests_cant": "All histories; copies in other orders are cached, so that a wrong copy shows only in later requests.", "anchors": ["nemo-physical/src/management/database/order.rs:OrderedReferenceManager", "nemo-physical/src/management/database/storage.rs:TableStorage", "nemo-physical/src/management/util.rs:closest_order", "nemo-physical/src/management/database.rs:DatabaseInstance"]}
{"id": "C40", "title": "An execution plan computes the tables of its relational algebra expressions", "statement": "Executing a plan of fetched tables, joins, unions, differences, projections and renamings, with any outputs marked as temporary, required to be non-empty, or permanent in some column order, does not panic. If an output that is required to be non-empty and is needed for a permanent output has no rows, nothing is stored. Otherwise each permanent output with rows is stored as a new table that has exactly the rows of its relational algebra expression, in the requested column order, and existing tables are unchanged; permanent outputs without rows are not stored. Asking for the first match yields a row whenever there is one.", "quantifier": "all plans that can be built with the plan API, all databases after any history, all iteration orders of hash maps", "why_tests_cant": "All plans: the executor reorders, shares, skips and cuts subtrees depending on how outputs depend on each other, so that a wrong decision shows only for particular combinations of nodes.", "anchors": ["nemo-physical/src/management/execution_plan.rs:ExecutionPlan::finalize", "nemo-physical/src/management/database/execution_series.rs:ExecutionSeries", "nemo-physical/src/management/database.rs:DatabaseInstance::execute_plan", "nemo-physical/src/management/database.rs:DatabaseInstance::execute_first_match"]}
{"id": "C41", "title": "String functions have their documented results", "statement": "The functions on strings and language-tagged strings (COMPARE, CONCAT, CONTAINS, STRSTARTS, STRENDS, STRBEFORE, STRAFTER, SUBSTR with one or two numbers, STRLEN, STRREV, UCASE, LCASE, LANG, STRLANG, URIENCODE, URIDECODE, REGEX) are defined exactly on strings with compatible language tags and never panic; they select the characters their names promise, keep the language tag of the first argument, and count positions from one. URIDECODE recovers what URIENCODE encoded. The answer of REGEX does not depend on the calls made before.", "quantifier": "all strings, tags, positions and lengths (including negative and huge ones), all sequences of regular expression calls, all segmentations of strings into characters", "why_tests_cant": "All strings, all integers as positions and all call histories of the shared cache.", "anchors": ["nemo-physical/src/function/definitions/string.rs", "nemo-physical/src/function/definitions/language.rs"]}
{"id": "C42", "title": "Casts, type checks and boolean functions have their documented results", "statement": "INT, FLOAT, DOUBLE and IRI never panic. INT of a text is the integer of 64 bits that it denotes (decimal, or binary, octal, hexadecimal with a prefix), of an integer that fits the integer itself, of a boolean 1 or 0, of a number without fractional part this number; otherwise it has no result. INT(STR(n)) = n and DOUBLE(STR(d)) = d; integers of up to 53 bits survive the conversion to double and back. The type checks are true exactly for the values of the type; AND, OR and NOT are the boolean functions, undefined for other values.", "quantifier": "all data values (all strings, integers, floating-point numbers) and lists of arguments", "why_tests_cant": "All strings and all numbers.", "anchors": ["nemo-physical/src/function/definitions/casting.rs", "nemo-physical/src/function/definitions/checktype.rs", "nemo-physical/src/function/definitions/boolean.rs", "nemo-physical/src/function/definitions/generic.rs"]}
{"id": "C43", "title": "Pushing rules into imports does not change results", "statement": "The program transformation that attaches rules over an imported predicate to the import statement, and projections and filters of such rules to the reading of the file, does not change the facts of exported predicates, nor of predicates that are not imported, and never makes the program panic.", "quantifier": "all programs, all contents of the imported files (including records that cannot be parsed), all interpretations of negation and aggregates", "why_tests_cant": "All programs and all files; failures depend on combinations of rules, formats and rows.", "anchors": ["nemo/src/rule_model/pipeline/transformations/filter_imports.rs", "nemo/src/execution/planning/normalization/rule.rs into_filter_transform_pattern", "nemo-physical/src/tabular/filters.rs", "nemo-physical/src/tabular/buffer/tuple_buffer.rs", "nemo/src/io/formats/dsv/reader.rs"]}
{"id": "C44", "title": "Removing statements that are not needed, and the whole preparation, keeps the results", "statement": "Before execution exactly the rules, facts and imports that an output or export depends on (transitively, also through negation) are kept, in their order. Output and exported predicates have the same facts in the remaining program, for every interpretation of negation and aggregates; perfect models correspond. The whole preparation (constants, parameters, exports, default outputs, removal) gives a program of valid rules where every printed or exported predicate has the facts of the user's program with the values of the parameters.", "quantifier": "all programs, all settings for exports, all external parameter values, all interpretations", "why_tests_cant": "All dependency graphs and rule orders, including cycles.", "anchors": ["nemo/src/rule_model/pipeline/transformations/active.rs", "nemo/src/rule_model/pipeline/transformations/default.rs", "nemo/src/rule_model/programs.rs"]}
{"id": "C45", "title": "The export setting and default outputs select the documented predicates", "statement": "The export setting (keep, none, idb, edb, all) overrides the exports of the program as documented: idb exports the predicates of rule heads, edb the predicates that are imported or given by facts, all both. Without outputs and exports all derived predicates are printed; otherwise outputs stay as they are.", "quantifier": "all programs and settings", "why_tests_cant": "All programs; failures depend on combinations of facts, imports and explicit exports.", "anchors": ["nemo/src/rule_model/pipeline/transformations/exports.rs", "nemo/src/rule_model/pipeline/transformations/set_default_outputs.rs", "nemo/src/execution/execution_parameters.rs"]}
{"id": "C46", "title": "Moving constants out of body atoms does not change results", "statement": "Replacing constants and computed terms in positive body atoms by fresh variables with equations keeps the facts of every predicate, the heads and the number of rules; afterwards positive body atoms have only variables as arguments.", "quantifier": "all programs with user variable names whose resulting rules are valid, all interpretations of negation and aggregates", "why_tests_cant": "All rules and all data.", "anchors": ["nemo/src/rule_model/pipeline/transformations/normalize.rs"]}
{"id": "C47", "title": "Parameters are evaluated consistently", "statement": "A program is accepted exactly if no parameter is declared twice, each has a definition in the program or from outside, and no definition depends on itself, in whatever order they are given. Then every parameter has at most one value, values from outside override definitions, and replacing the parameters gives the facts of the program with the values in place of the parameters.", "quantifier": "all lists of declarations and external values, all programs using them", "why_tests_cant": "All dependency orders of definitions.", "anchors": ["nemo/src/rule_model/pipeline/transformations/global.rs", "nemo/src/rule_model/programs.rs validate_parameters"]}
{"id": "C48", "title": "Expressions are read with the usual precedence, for every text", "statement": "Every text that writes an expression (constants, variables, numbers, function calls, tuples, arithmetic, parentheses, with space and comments between the parts) is read up to its end as this expression: products bind stronger than sums, operators of the same strength group to the left. So a text has only one reading. Whatever is read is written there, and for every text the parser answers. The same for comparisons of two expressions.", "quantifier": "all texts, all nestings, all lists of function names with the property checked by the project's test", "why_tests_cant": "The grammar is infinite and the parser backtracks; tests only read single texts.", "anchors": ["nemo/src/parser/ast/expression.rs", "nemo/src/parser/ast/expression/complex/arithmetic.rs", "nemo/src/parser/ast/expression/complex/parenthesized.rs", "nemo/src/parser/ast/expression/complex/operation.rs", "nemo/src/parser/ast/expression/complex/infix.rs", "nemo/src/parser/ast/sequence.rs", "nemo/src/parser/ast/comment/wsoc.rs"]}
{"id": "C49", "title": "Number literals denote their value", "statement": "An integer literal that fits into 64 bits is exactly the integer it writes; every other decimal (with fraction, exponent, or too large) becomes the floating point number nearest to the value of the text, of the type its marker selects; encoded literals (0b, 0o, 0x) have the value of their digits in the base, without limit.", "quantifier": "all literals, of every length", "why_tests_cant": "Infinitely many texts; the limits of 64 bits and of the exponent are single points.", "anchors": ["nemo/src/parser/ast/expression/basic/number.rs", "nemo/src/parser/ast/expression/basic/enc_number.rs", "nemo/src/rule_model/translation/basic/number.rs", "nemo/src/rule_model/translation/basic/enc_number.rs"]}
{"id": "C50", "title": "Printed terms can be read back", "statement": "The text of a term (as printed in messages, traces and exported rules) is read by the parser, and what is read has the same operations with the same operands in the same order, with operations of the same strength grouped to the left; so it is the same term exactly if no right operand of a sum or product is an operation of the same group. The same for comparisons as conditions. Different left-grouped terms have different texts.", "quantifier": "all terms of variables, 64-bit integers, constants, functions, tuples of at least two elements and operations, of every depth", "why_tests_cant": "Infinitely many terms; parentheses depend on every pair of operator and operand.", "anchors": ["nemo/src/rule_model/components/term.rs", "nemo/src/rule_model/components/term/operation.rs: Display, format_braces_priority", "nemo/src/rule_model/components/term/operation/operation_kind.rs: precedence", "nemo/src/rule_model/components/term/function.rs", "nemo/src/rule_model/components/term/tuple.rs", "nemo-physical/src/datavalues/iri_datavalue.rs: is_name", "nemo/src/rule_model/translation/term.rs", "nemo/src/rule_model/translation/complex/arithmetic.rs"]}
{"id": "C51", "title": "Moving imports into rules keeps the answers", "statement": "If imports from a SPARQL endpoint are asked while a rule that uses them is applied, instead of being loaded completely before, the same facts are derived for every other predicate, and the models of the program (with stratified or any other negation) correspond to each other. Predicates that are exported or given out, or that have facts, rules or a second import, are never treated like this; no other import, fact, export or output is lost; and every such atom has a constant, a computed term or a variable that is bound before, so that no complete table is asked for. This holds for programs where each rule uses at most one endpoint this way and no two atoms of one imported predicate have computed terms or constants in the same place.", "quantifier": "all programs of facts, rules with positive and negated atoms, equalities and conditions, imports, exports and outputs; all query results; all meanings of the operations", "why_tests_cant": "the unit tests look at the transformed program for a few rules and never compare answers; whether a rule keeps its answers depends on the variables of all its atoms and on the other statements of the program", "anchors": ["nemo/src/rule_model/pipeline/transformations/incremental.rs: incremental_predicates, possible_rule, has_unrestricted_atom, incremental_rule, new_variable, apply"]}
{"id": "C52", "title": "Merged SPARQL queries", "statement": "Two queries that are sent to an endpoint as one return exactly the joined rows: one row for each pair of rows that agree in the joined columns and have the given constants, without the constant columns and with joined columns given once. Constants, bindings and filters that are put into a query select exactly the rows of the original query that have the constants, agree with one row of each set of bindings, and satisfy the filters. Variables of the two queries are never mixed up, whatever their names and however deep they occur. This holds if the outermost operation is a projection, no name ends with Label, and the columns that are used always have values.", "quantifier": "all queries built from graph patterns, joins, OPTIONAL, UNION, MINUS, FILTER with (nested) EXISTS, BIND, VALUES, subqueries and DISTINCT; all contents of the endpoint; all orders in which hash sets are listed; all joins, constants, bindings and filters", "why_tests_cant": "the unit tests compare the text of a few merged queries; whether the merged query has the same results depends on the meaning of all nested operations and on clashes of names", "anchors": ["nemo/src/io/formats/sparql/queries.rs: rename_in_graph_pattern, rename_in_expression, variables_in_pattern, standardize_variables, bind_constants, merge_project_patterns, push_constants_in_project_pattern, pattern_with_bindings, pattern_with_filters, negate_project_pattern"]}
{"id": "C53", "title": "Merging the imports of a rule", "statement": "If the SPARQL imports of a rule are merged into one, the rule derives the same facts. If only the imports change, it has exactly the same matches; if the merged import is moved out of the rule (because it is not restricted by other atoms), the rule derives the same facts from the predicates together with the new import. The transformation always succeeds. This holds for positive imports from the same endpoint, with one constant for each variable and no constant for a variable that two imports share.", "quantifier": "all rules with imports, operations and equalities; all contents of endpoints and predicates; all orders in which hash sets are listed; all sets of ineligible predicates", "why_tests_cant": "the unit tests compare the merged rules of a few programs; whether they derive the same facts depends on the meaning of queries and rules for all data", "anchors": ["nemo/src/rule_model/pipeline/transformations/merge_sparql.rs: TransformationMergeSparql, merge_and_push_constants, update_import, try_equality_from_operation", "nemo/src/rule_model/components/import_export.rs: try_merge, push_constants", "nemo/src/rule_model/components/import_export/clause.rs: ImportClause"]}
{"id": "C54", "title": "Imports with bindings", "statement": "An import that is restricted by tables of bindings (each one with old and new rows) writes exactly the rows of the query that agree with a row of each table and with a new row of at least one, however the bindings are split into pages and queries. If the endpoint finds queries too large, the rows are a superset of these and still rows of the query. With one table the import ends whenever queries with one row of bindings are short enough; with several tables if their bindings fit into one page.", "quantifier": "all queries with a projection, all tables of bindings, all page sizes and limits for the length of queries, all contents and answers of the endpoint", "why_tests_cant": "there are no tests of the reader; pages depend on the sizes of all tables of bindings, on the length of queries and on the answers of the endpoint", "anchors": ["nemo/src/io/formats/sparql/reader.rs: load_from_bindings, query_with_bindings, bindings_chunks, queries_with_bindings", "nemo-physical/src/datasources/bindings.rs: Bindings, ProductBindings"]}
{"id": "C55", "title": "Requests of rules with imports", "statement": "However rules with imports are applied, a row that agrees with rows the other parts of a rule have had, each at any time, has been imported if and only if it is a row of the source; bindings that have been requested before are not requested again; tables of bindings for different patterns have different names.", "quantifier": "all programs of rules with any numbers of inputs and import atoms, all histories of applications with any rows, all sources", "why_tests_cant": "whether bindings are new depends on all applications of all rules that share a table of bindings, and a rule with several factors needs all combinations of old and new bindings", "anchors": ["nemo/src/execution/planning/operations/import.rs: BindingPattern::new, BindingPattern::name, BindingPattern::arity, ProductBinding::bound_positions, GeneratorImport"]}
{"id": "C56", "title": "Bodies of rules with imports", "statement": "A rule with import atoms has the matches of the same rule in which imports are ordinary predicates with all rows of their sources, although only requested rows are imported.", "quantifier": "all rules with any numbers of positive, negated and import atoms and operations, all tables, sources, steps and valuations", "why_tests_cant": "operations and negated atoms are distributed over the factors, the negated imports and the final join, depending on which variables are bound where; the split has to be right for all rules", "anchors": ["nemo/src/execution/planning/strategy/forward/body.rs", "nemo/src/execution/planning/operations/join_cartesian.rs: GeneratorJoinCartesian, Partitions::add", "nemo/src/execution/planning/operations/join_imports_simple.rs", "nemo/src/execution/planning/operations/join_imports_general.rs", "nemo/src/execution/planning/operations/function_filter_negation.rs"]}
{"id": "C57", "title": "Printed constants can be read back", "statement": "The text of a constant (string, string with a language, truth value, IRI or typed literal), as printed in facts, traces and messages, is read in a program as the same constant.", "quantifier": "all constants with all Unicode strings, all texts that may follow a constant, all declared bases and prefixes", "why_tests_cant": "infinitely many strings; escaping and the alternatives of the parser depend on every character and on what follows", "anchors": ["nemo-physical/src/datavalues/datavalue.rs: quote_string, quote_iri", "nemo-physical/src/datavalues/{string,lang_string,iri,boolean,other,null}_datavalue.rs: Display", "nemo/src/parser/ast/expression/basic/{blank,boolean,constant,iri,rdf_literal,string}.rs", "nemo/src/parser/ast/expression.rs: parse_basic", "nemo/src/parser/ast/tag/structure.rs", "nemo/src/rule_model/translation/basic/*.rs", "nemo/src/rule_model/translation.rs: resolve_tag"]}
{"id": "C58", "title": "Format strings stand for the concatenation of their parts", "statement": "A format string is read up to its end as its characters (braces doubled) and the expressions between its braces; its value is the plain string of these characters and of the texts of the values of the expressions, in this order.", "quantifier": "all ASCII texts, all expressions in them, both forms (short and long), all values of the expressions", "why_tests_cant": "infinitely many texts; where text, escapes and expressions end depends on every character and on what follows", "anchors": ["nemo/src/parser/ast/expression/complex/fstring.rs: FormatString::parse", "nemo/src/parser/ast/token.rs: parse_character_sequence_until_one_of, fstring, multiline_fstring", "nemo/src/rule_model/translation/complex/fstring.rs", "nemo-physical/src/function/definitions/string.rs: StringConcatenation", "nemo-physical/src/function/definitions/generic.rs: LexicalValue"]}
{"id": "C59", "title": "Imported JSON documents are described completely by their triples", "statement": "Importing a JSON document gives triples from which the document can be read back (up to the order of members): every value is a node with its type and its content, elements are linked by their positions or keys, every node is an element of at most one node, and nothing else is said about a node.", "quantifier": "all JSON documents (any nesting and size)", "why_tests_cant": "infinitely many documents; ids are given out by a stack-driven loop over the whole document", "anchors": ["nemo/src/io/formats/json/reader.rs: JsonReader::provide_table_data"]}
{"id": "C60", "title": "Sets of storage types behave as sets", "statement": "The bit sets that announce the possible storage types of a column behave as finite sets: empty, full, singletons, union, intersection, adding, removing, membership, inclusion, 'exactly one' and the listing of the types agree with the set operations, and no operation on types panics.", "quantifier": "all words, all numbers of bits, all indices, all storage types", "why_tests_cant": "2^64 words; the existing tests use a few literals", "anchors": ["nemo-physical/src/util/bitset.rs: BitSet", "nemo-physical/src/datatypes/storage_type_name.rs: StorageTypeName, StorageTypeBitSet"]}
