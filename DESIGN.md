# Formal model of cheval: design

The model is a set of shallow, executable Gallina functions that mirror the Python functions branch by
branch.  Python exceptions are values (`res A = Ok a | Err e`); methods that mutate and may raise return
`(new_state, res A)`, so that the state left behind by a failing call is visible.  Objects with identity
(choice nodes, utility tables, frames) live in heaps.  Nothing of the code is axiomatised: what is not
modelled is a parameter that theorems quantify over (see "Trusted base").

Each property is a theorem `Cxx_...` in a file `Prop*.v`.  Its statement uses the operations of the model and a
small specification from a file `Spec*.v`; beside it are `Example`s showing a concrete, non-trivial case that meets
its hypotheses.  Suffix `_refuted`: the faithful model violates the claim, and the theorem exhibits a witness.
Suffix `_partial`: only part of the claim is proved; the comment above the theorem states what is missing.
Where a claim is refuted we also prove, where possible, exactly what the code does instead.

(This file is assembled by `tools/design.py` from `tools/design_head.md` and the output of
`tools/assumptions.py`.)

## Layout (`rocq/theories`)

### Models

| file | models |
|---|---|
| `Prelude.v` | exceptions, `res`, list update, insertion-ordered dictionaries |
| `Arith.v` | the arithmetic interface `arith`; instances `XR` (exact extended reals: NaN, +-inf, IEEE special-value rules, no rounding, no overflow) and `B64` (IEEE binary64 from Flocq; exp and log are arbitrary functions) |
| `CoreModel.v` | `cheval/core.py` 27-301: samplers, multinomial and nested probabilities, over any `arith` |
| `ParModel.v` | `cheval/core.py` 307-504: `prange` loops run by any number of threads with thread-local generators, and the loads and stores of `fast_indexed_add` |
| `TreeModel.v` | `cheval/api.py` 24-109, `cheval/model.py` 77-215, 341-349, 614-620: choice nodes, choices, `_flatten`, validation of the tree |
| `ExprModel.v` | `cheval/parsing/*`, `cheval/api.py` 113-241: syntax trees, the transformer, '@' filters, dict literals, expression containers |
| `ScopeModel.v` | `cheval/api.py` 246-489, `cheval/utils.py`: number, vector, table and matrix symbols, assignment and alignment, attribute chains |
| `ModelModel.v` | `cheval/model.py` 27-75, 217-782: `ChoiceModel`: decision units, scope, validation, evaluation, runs, preval, copies, external partial utilities; worlds of several models |
| `DebugModel.v` | `cheval/model.py` 29, 51-52, 459-464, 501-507, 682, 732: `debug_id` and `debug_results`; histories with debugging |
| `CopyTree.v` | `cheval/model.py` 667-745 and `cheval/api.py` 24-109: which nodes copies share with the original (C76) |
| `LdfModel.v` | `cheval/ldf/*`: frames, links, indexers, row selection, reindexing, lookups, aggregations, fill values, `evaluate` |
| `LdfMore.v` | `cheval/ldf/api.py` 387-389, 752-778, 792-845, `cheval/ldf/missing_data.py` 82-93: `link_summary`, `get_link_target`, `pivot_table`, `temporary_fill_defaults` |
| `LdfTables.v` | linked frames as tables of a choice model: instance of the frame interface of `ScopeModel.v` |

### Specifications

`SpecSampling`, `SpecLogit`, `SpecNested` (real-number definitions of the models), `SpecTree` (well-formed trees),
`SpecExpr` (meaning of expressions before and after rewriting), `SpecDict` (dict literals), `SpecContainer`
(containers as values), `SpecScope` (labelled data), `SpecModel` (the meaning of a symbol in one cell; sums of
contributions), `SpecLdf` (keys, matching rows, paths, orderly histories), `SpecFill` (precedence of fill values), `SpecEnd` (what texts
mean in a cell; logit equations, results and draws of a whole run), `SpecIeee` (real values of doubles), `SpecExternal` (tables given by label), `SpecLinked` (values found by
following keys), `SpecMore` (the links of every frame as told by the history), `SpecCalc` (changes of elemental utilities; one node table inside another).

### Proofs and property files

| properties | lemmas | theorems |
|---|---|---|
| C01-C05 | `SamplingProofs` | `PropSampling` |
| C06-C12 | `MnlProofs` | `PropMultinomial` |
| C13-C18 | `NestedProofs`, `NestedExact`, `NestedMore` | `PropNested` |
| C19-C23 | `ParProofs` | `PropParallel`, `PropLost` |
| C24-C31, C75 | `DictProofs`, `TreeProofs`, `TreeMore`, `TreeHist`, `TreeRow` | `PropTree`, `PropTreeMore` |
| C32, C33, C36, C37 | `ExprProofs`, `ExprUses`, `ExprMeaning`, `ExprNames`, `ExprCounts` | `PropExpr`, `PropNames` |
| C38, C39 | `ExprDict` | `PropDict` |
| C34, C35, C41, C42 | `ExprContainer`, `ExprWorld`, `ExprSets` | `PropContainer` |
| C46-C49 | `ScopeProofs` | `PropScope` |
| C40, C43, C44, C51, C59 | `ModelProofs`, `KernelProofs`, `EvalProofs` | `PropState` |
| C45, C50 | `ModelWorld`, `ModelHist`, `ModelTabs`, `RunProofs` | `PropUtility` |
| C52, C53, C30 | same | `PropRerun`, `PropStale`, `TreeMoved`, `PropMoved`, `PropTop` |
| C106, C107 | same | `PropFailed`, `PropPoison` |
| C108, C109 | `ExprSame`, `SpecUnits`, `RunResult` | `PropUnits`, `UnitsExample` |
| C110, C111 | `SpecOrder` | `PropOrder` |
| C112 | `ExprModel`, `ExprNull`, `LdfModel` | `PropAggs` |
| C113 | `SpecUnits` | `PropShuffle` |
| C114, C115 | `ConvModel` | `PropConv` |
| C116 | C82, C83 (whole runs) over `XR` | `PropConst` |
| C118 | C82, C101, the flattening (`TreeMore`) | `PropOwn` |
| C119 | C82, C16, the flattening | `PropUnit` |
| C120 | C82, C83, C06 | `PropOdds` |
| C121 | C116, C82, C90 | `PropLevel` |
| C122 | C104, C103, C82, C26 | `PropLess` |
| C54, C55 | `EvalTransfer`, `ModelInv`, `PrevalExamples` | `PropPreval` |
| C56, C57, C76 | same, `CopyTree`, `CopyExamples` | `PropCopy`, `PropIsolation`, `CopyTree` |
| C58 | same | `PropExternal` |
| C60, C61 | `LdfProofs`, `LdfKeys`, `LdfReads`, `LdfInv`, `LdfGood`, `LdfLookup`, `LdfExample` | `PropLookup` |
| C69, C77, C78 | `LdfLinks`, `LdfSim`, `LdfNorm` | `PropReads`, `PropLater` |
| C62, C72, C79 | same | `PropLinkTo`, `PropLinkErrors` |
| C63, C64, C80, C81 | `LdfGroups` | `PropAgg` |
| C65 | `LdfSlice` | `PropSlice` |
| C66, C67 | same | `PropRows` |
| C70, C71 | same | `PropFill` |
| C73 | same | `PropEvaluate` |
| C57 (linked), C74 | `LdfCols`, `LdfTables` | `PropTables` |
| C68 | same | `PropRefresh` |
| C82-C85 | `EndProofs`, `OutProofs`, `EndExample` | `PropEnd` |
| C88 | `LinkedProofs` | `PropLinked` |
| C89 | same as C58, C82 | `PropRunExternal` |
| C90, C91 | `DebugModel` (model), C82's lemmas | `PropDebug` |
| C86, C87, C03 (doubles) | `IeeeProofs` | `PropIeee` |
| C92 | `NestedIeee`, `ModelTrees` | `PropNestedIeee` |
| C95 | `NestedSum` | `PropNestedSum` |
| C96 | C95's and C84's lemmas | `PropChoice` |
| C97, C98, C99 | C77's lemmas, `LdfLinks` | `PropMore` |
| C100-C105, C85 | `NestedCalc`, `NestedGrad`, `NestedEmbed` | `PropNestedCalc`, `PropLogsum` |
| C93, C94 | C01's and C87's lemmas | `PropWeights` |
| C117 | `AliasModel` (model) | `PropAlias` |

## Property by property

| id | modelled | method |
|---|---|---|
| C01 | `sample_once` over XR and over any arithmetic | induction on the list, cells as partial sums |
| C02 | same | corollary of C01 |
| C03 | `sample_once`, `simple_probabilities` over B64 | refuted by computation in Flocq; only the last alternative can be affected, and only by numbers within 2n rounding units of 1 |
| C04 | `logarithmic_search` over any arithmetic | loop invariant on (lower, upper); fuel shown sufficient |
| C05 | `sample_multi`, `nbf_cumsum` over B64 | monotonicity of rounded addition (Flocq), then C04 |
| C06-C11 | `multinomial_probabilities` over XR | algebra of finite sums over R |
| C12 | same, and B64 | refuted with +inf and by overflow; partial = C06 |
| C13 | `nested_probabilities` over any arithmetic | loop invariants of the four passes; the equations have one solution |
| C14-C17 | same over XR | C13, sums grouped by parent, induction on levels |
| C18 | both evaluators over any arithmetic with x/1=x | C13 specialised |
| C19, C20 | iterations of `prange` loops as programs, thread-local generators | invariant over the small-step relation: any interleaving ends in the sequential result |
| C21 | `worker_weighted_sample` | refuted (generator filled by unseeded threads; tuple unpacking) |
| C22, C23 | load/store micro-steps | invariant over the small-step relation; refuted for repeated labels by a schedule |
| C24-C26, C31 | object heap of nodes, histories of calls | invariant over the list of operations |
| C27 | tree + nested/multinomial probabilities over XR | C14 + C26 + column filter |
| C28-C30, C75 | same | refuted with concrete histories; the parts that hold are proved |
| C32, C33 | syntax trees, transformer in a state and exception monad | nested induction; refuted below unary minus |
| C34, C35, C41, C42 | histories of container operations | invariants, refinement to plain values; C35, C42 refuted |
| C36 | substitution names as strings | refuted (a#10 / a1#0); proved for names not ending in a digit; the exact condition by counting usages per symbol |
| C37 | strings | induction |
| C38, C39 | dict literals against the choice labels | meaning node by node; float32 rounding refutes exactness |
| C40, C43, C44, C51, C59 | `ChoiceModel` state machine | invariants of histories; cell-wise evaluation |
| C45 | validation + evaluation | invariant: registered symbols are declared and assigned |
| C46-C49 | assignment to symbols | direct, labels by position; C48, C49 refuted, opposite proved |
| C50 | evaluation over any arithmetic | every cell is the sum of the meanings, by induction over the expressions |
| C52, C53 | cached utilities in the world of models | refuted; what is returned instead is proved |
| C54, C55 | preval | cell-wise sums in exact arithmetic; exact set of removed symbols; refuted parts |
| C56, C76 | copies in a world of any number of models | frame property of every operation; evaluation transfer; refuted parts |
| C57 | copy_subset, plain and linked tables | row selection commutes with every kind of symbol; refuted for delayed links |
| C58 | alignment + ParModel | C22 under the alignment; refuted for empty subsets |
| C60, C61 | frames, links, lookups in a heap of frames | invariant of orderly histories, induction on the path |
| C62, C72, C79 | `link_to` | exact condition for acceptance; classification against the keys |
| C63, C64, C80, C81 | grouping and reduction | codes = matching rows; shift by one with missing keys |
| C65 | row selection | indexer of the selection = selected indexer |
| C66, C67 | finalised and reindexed frames | exactly what is read instead, for every reordering |
| C68 | refresh | exact reading after a refresh, any history |
| C69, C77, C78 | stored indexers | simulation between frames that differ in stored indexers only |
| C70, C71 | fill settings | refinement of histories to a precedence rule |
| C73 | `evaluate` | which value each name stands for |
| C82 | `run_utilities` against the texts | C50 composed with the correctness of the transformer (C32-C39), cell by cell |
| C83, C84 | `RunOut`: all outputs of both run methods, any schedule | C13, C19, C20, C26, C59 composed |
| C85 | top-level term over XR | refuted: it is the sum of exponentials |
| C86, C87 | `multinomial_probabilities` over B64 | relative error of every rounded operation (Flocq), induction on the sum |
| C88 | linked frames as tables of a choice model | C61, C63 composed with C82 |
| C90 | `DebugModel`: evaluation with the record, histories with `debug_id` | simulation against the plain model; prefixes of the expression list (C82) |
| C91 | same | refuted; the exact behaviour proved |
| C92 | `nested_probabilities` over B64, whole runs | the nested logit equations (C13) hold in any arithmetic; bounds of rounded sums, quotients and products; invariant of the trees over histories |
| C93 | `simple_probabilities`, `simple_sample`, the worker | closed form over R, C01's cells, C87's bounds, footprints of the parallel loop |
| C95 | `nested_probabilities` over B64, whole runs | the children of a feasible nest sum to 1 within rounding (relative and absolute errors, Flocq); induction over the tree from the leaves |
| C96 | both run methods on one state | the rows are shared (C84); adding the zeros of the nests is exact; C95's bound on the total |
| C97 | links of every frame folded from the history; `link_summary`, `get_link_target` | invariant over histories: what each link shows is what the fold says |
| C98 | `pivot_table` over an abstract pandas | names are resolved one by one; reads change no later read (C77); lists refuted |
| C99 | the loop and the `finally` of the fill manager; generators that never run | induction over the keyword arguments: the saved values are the original ones |
| C100 | `nested_probabilities` over the reals | every term is multiplied by e^(c/divisor); induction from the leaves |
| C101 | same | terms grow along the path above the choice and nowhere else; probability per unit of term falls; inductions up and down the tree |
| C102 | same, as a function of one utility | derivatives of all terms (chain rule, induction); the weighted derivatives add up over the children, so the top derivative equals the one leaf's |
| C103, C104 | two node tables, one inside the other | induction from the leaves: terms agree, sums of groups are permutations plus zeros |
| C105 | same | every node weighs at most what its nest weighs (any scale); a nest at most its children together (scale at most 1: sums of powers); inductions over the tree |
| C106 | model histories, runs that return an error and the state they leave | false: two-line counterexample; the state after a failure is computed from `evaluate` (the expressions evaluated before the failing one), then the theorem on runs that start from a kept table |
| C107 | same | false: counterexample; invariant over all calls: the kept table of the model has a NaN cell (sums with NaN are NaN, other models write other tables) |
| C108 | pairs of model histories | an accepted expression depends on its text only (visitor run in two containers); the value of each expression in the two cells agrees by locality of numexpr; then the rows, the logit functions of the row, and the draws by position |
| C109 | a model and its `copy_subset` | false: counterexample for every generator and seed that separates the first two numbers |
| C110 | reorderings of set-up calls | neighbouring calls commute up to an equivalence of worlds that every call and run respects |
| C111 | assignments to one symbol | an accepted assignment overwrites the data field |
| C112 | expressions calling an aggregation | false for `quantile`; the accepted ones are characterised |
| C113 | pairs of model histories | false with rounding and with OUT; otherwise the sum of a permutation of the values |
| C114 | `convert_series` on columns | false for missing categories and large integers; otherwise the width is at least every length; IEEE rounding is exact up to 2^53 |
| C115 | `float(data)` | false for texts; exact otherwise |
| C116 | pairs of runs, one more expression | C82, C83 and the logit formula (C06) in exact arithmetic; the sum of the texts with one more at the end |
| C117 | histories of assignments, in-place writes, copies, subsets over a memory model (`AliasModel`) | false: counterexample; otherwise invariants of the slot of a symbol over every later history |
| C118 | pairs of runs of models with nests, one more expression | the table of the tree is well-formed with positive scales, so C101 applies to the two rows of utilities of C82 |
| C119 | pairs of runs, one with nests and one without | the rows of utilities of C82 go through C16 (collapse to the multinomial) and the labels of the elemental choices; the run without nests through C06 |
| C120 | pairs of runs of models without nests | the rows of utilities of C82 go through the logit formula; the odds and the added term are algebra |
| C121 | the nested formula on every table, then pairs of runs | induction up the table: the term of a node grows by e^(k (levels below and including it) / divisor); conditional probabilities do not change; the whole run by C82 |
| C122 | pairs of runs of models with nests, a map between their nodes | the map on nodes gives a map on table positions (names and parents determine labels), so C104 applies to the rows of utilities of C82; labels by C26 |
| C94 | same | refuted for every length, number and schedule |
| C89 | `add_partial` then `run_utilities`; `MGive` calls in histories, whose outcome is any outcome of the parallel loop | C58 by induction on the tables (and over histories with other calls between them), composed with C82 |
| C74 | chains in utility expressions | the frame interface of the choice model instantiated with linked frames |

Every listed property can be expressed in the model; none is `not_applicable`.

## Trusted base

1. **Coq 8.16.1's kernel**, including its `vm_compute` reduction (used for examples and refutations by computation).
   No kernel check is switched off, there are no axioms of our own, no functors or module types, no plugins.
2. **The reading of the Python code** in the model files (each definition cites the lines it models and names its
   simplifications), and of the parts of pandas, numpy, numexpr, numba, ast and astor they call.
3. **The axioms `Print Assumptions` lists** (end of this file): standard-library axioms only, coming from Coq's real
   numbers (`ClassicalDedekindReals`, `Classical_Prop.classic`, functional extensionality), which Flocq and the
   theorems about exact arithmetic use.

### What is modelled how

* *Numbers.*  Theorems "over any arithmetic" hold for IEEE doubles as numba computes them (no function of `core.py`
  is compiled with `fastmath`, so sums are not reassociated).  Theorems over `XR` are about exact arithmetic: no rounding, no overflow; exp and log are the real
  functions.  In `B64` exp and log are arbitrary functions, so that results there do not depend on the C library.
  The precision of the table (4 or 8 bytes) is a parameter (`ev_f32` rounds dict literals).
* *Python.*  Syntax trees of Python 3.7 (`Num`, `Str`); strings are ASCII; the parser is a parameter; `astor.to_source`
  is identified with the tree it prints; sets are lists without regard to order; a mutating call that raises leaves
  the state in which it raised.
* *numexpr* is a parameter (`ev_ne`, `v_ne`): any function of the tree and of the values of the names occurring in it,
  applied cell by cell with numpy's broadcasting; the list of supported functions is a parameter.
* *pandas* 1.1-1.4.  Indices are lists of labels with an equality; multi-indices are lists of tuples; columns are lists
  of cells, with a kind (number, text, ...) that matters for fill values and conversions only.  Memory sharing between
  frames and arrays is not modelled (assigned data are snapshots).  Iterating over `groupby` finalises each group with
  the grouped frame (`LGroup`).  `convert_series` commutes with row selection except for text columns of which no row
  is selected (`conv_rows`, hypothesis of C57).
* *Linked frames as tables* (`LdfTables.v`) are snapshots: by C77 reading a frame changes no later read; a table with a
  delayed link that is read before rows are selected is not represented (C57 for linked tables assumes stored indexers,
  and C57_delayed_links_refuted shows the other case).
* *Threads.*  Sequentially consistent memory; an aligned 8-byte load or store is one action; numba's scheduler may hand
  iterations to threads in any way.
* *Random numbers.*  The generator is a parameter (any state type, any step); each thread has its own.

### What is not modelled

Version handling (`_version.py`), logging, `debug_id` with repeated labels, `n_threads` as a number (any number of threads is covered), dtypes other than the kinds above,
`__dir__`, `__str__`, `read_*`/`to_csv`, `categorical` data other than as texts, deep versus shallow copies of frame data, and pandas
methods that are not listed as operations of `LdfModel.v` (`lop`).

## What `Print Assumptions` lists

Output of `tools/assumptions.py`: every theorem of `MANIFEST.json`, grouped by the axioms it rests on.

* nothing (closed under the global context) (221 theorems): C01_any_arithmetic, C04_terminates_in_range, C04_finds_first_cell, C13_nested_logit_equations, C13_total, C13_solution_unique, C18_one_level_is_multinomial, C19_multinomial_rows, C19_nested_rows, C19_nothing_else_written, C19_no_deadlock, C19_runs_exist, C20_multinomial_reproducible, C20_nested_reproducible, C20_multinomial_one_draw, C20_nested_one_draw, C20_multinomial_many_draws, C20_nested_many_draws, C21_many_draws_raise_refuted, C21_one_draw_in_range_partial, C22_rejected_before_writing, C22_adds_in_every_schedule, C23_lost_update_refuted, C23_any_schedule, C23_every_subset_possible, C24_tree_stays_consistent, C24_consistent_with_replacement, C24_add_choice_effect, C24_node_add_choice_effect, C25_labels, C25_depth, C26_flatten_encodes_tree, C28_replacing_a_childless_choice_partial, C28_replacing_any_choice, C28_replacing_any_child, C29_rejected_new_name_partial, C29_rejected_new_child_partial, C29_rejected_existing_name, C29_rejected_existing_child, C30_top_level_add_partial, C30_top_level_addition_forgets_runs, C30_fresh_table_has_current_choices_partial, C30_nested_choice_after_a_run_raises, C30_readding_moves_the_choice, C30_readding_shifts_utilities, C31_validation_exact, C75_add_choices_partial, C32_rewriting_preserves_meaning_partial, C32_environment_exists, C32_rewriting_preserves_meaning_refuted, C33_symbols_registered_partial, C33_symbols_registered_without_negation, C33_all_symbols, C33_symbols_registered_refuted, C34_simple_or_chained, C34_copy_forgets_groups, C34_sum_mixes, C35_rejected_append_partial, C35_rejected_append_refuted, C36_substitution_names_distinct_partial, C36_substitution_names_distinct_refuted, C36_names_distinct_iff, C36_up_to_ten_usages, C37_filter_split_off, C37_one_at, C37_stripped_unique, C41_containers_hold_what_was_appended, C41_drop_removes_only_the_group, C41_append_changes_only_the_group, C42_no_aliasing_partial, C42_no_aliasing_refuted, C42_sum_holds_both, C46_vector_accepted_iff_aligned, C46_vector_stored, C46_table_accepted_iff_aligned, C46_table_column, C47_matrix_aligned_by_label, C48_both_axes_refuted, C48_both_axes_partial, C49_allow_links_refuted, C49_allow_links_inverted, C40_only_the_column, C40_filter_succeeds, C43_no_reserved_symbol, C43_declare, C44_units_empty_symbols, C44_stays_unassigned, C51_nan_raises, C51_probabilities_from_numbers, C59_positions_to_labels, C45_symbols_assigned, C45_failures_partial, C50_utilities_are_sums, C50_meanings_exist, C50_starts_from_cached, tables_obey_frame_laws, orderly_frames_are_tables, C52_second_run_adds, C53_no_cache_partial, C53_other_shape_raises, C53_another_number_of_units_raises, C53_as_many_units_start_from_the_old, C54_same_utilities, C54_preval_succeeds_partial, C55_what_is_cleared, C55_ungrouped_symbols_stay, C55_nothing_cleared, C55_after_copy_partial, C56_copy_runs_the_same, C56_default_copy_runs_the_same, C56_copy_same_utilities, C56_isolated, C56_isolated_probabilities, C56_isolated_discrete, C57_subset_runs_on_the_rows, C57_subset_probabilities, C57_linked_tables, tables_obey_frame_slices, C58_added_by_label, C58_raising_changes_nothing, C58_wrong_labels_raise, C58_known_labels_accepted, C58_in_histories, C58_raising_in_histories, C76_new_nodes_isolated_partial, C60_lookups_follow_the_keys, C60_lookup_into_an_empty_table_raises, C61_chained_lookups_follow_the_keys, C69_delayed_links_are_accepted_alike, C69_delayed_lookups_equal_precomputed, C69_computing_later_equals_precomputing, C69_delayed_aggregations_raise, C69_delayed_aggregation_refuted, C69_delayed_name_of_key_refuted, C77_reads_do_not_change_reads, C78_reading_pins_the_keys_refuted, C78_reads_of_indexed_links_leave_nothing_partial, C62_links_are_classified, C62_stored_positions, C72_accepted_iff, C72_accepted_links_as_documented, C72_rejected_changes_nothing, C72_conflicts_are_rejected, C72_level_mismatch_is_rejected, C79_integer_level_refuted, C79_error_kinds_refuted, C79_errors_have_reasons, C79_each_reason_refuses, C63_aggregates_over_the_matching_rows, C64_missing_keys_refuted, C64_missing_keys_shift_the_groups, C80_count_of_floats_raises, C80_count_refuted, C81_count_of_a_condition_refuted, C81_count_ignores_the_condition, C65_selected_rows_read_alike_partial, C65_selected_rows_aggregate_alike_partial, C65_orderly_selected_rows_read_alike, C65_repeated_selections_read_alike_partial, C65_delayed_links_refuted, C65_after_a_refresh_refuted, C66_finalised_frames_read_in_the_original_order, C66_fewer_rows_cannot_be_read, C66_finalised_frames_cannot_aggregate, C66_sorting_refuted, C67_reindexed_frames_read_in_the_original_order, C67_reindexed_to_another_length_cannot_be_read, C67_reindexing_refuted, C70_fills_follow_the_documented_precedence, C70_unmatched_rows_read_the_documented_fill, C71_new_frames_ignore_the_class_settings, C71_class_defaults_refuted, C73_names_stand_for_columns_first_partial, C73_local_dict_refuted, C74_one_link_always_fails_refuted, C74_function_ignored_refuted, C74_longer_chains_aggregate_partial, C68_edited_keys_refuted, C68_refreshing_a_slice_refuted, C68_after_refresh_exactly, C68_unread_links_become_current_partial, C82_utilities_mean_the_texts, C83_stochastic_outputs, C83_first_output, C84_discrete_outputs, C84_returns, C88_chains_follow_the_keys, C88_utilities_follow_the_keys, C89_run_adds_to_the_cached, C89_given_tables_then_run, C89_in_histories, C90_run_the_same, C90_debugging_changes_nothing_else, C90_rows_show_each_text, C90_every_run_recorded, C91_unknown_label_raises, C91_false_label_records_nothing, C93_worker_rows, C97_targets_are_those_of_the_last_link_to, C97_the_summary_lists_the_links, C97_new_links_are_preindexed_on_demand, C97_compute_indexers_leaves_all_preindexed, C98_pivots_of_names_partial, C98_lists_of_names_raise, C98_lists_refuted, C99_nothing_is_left_changed, C99_unknown_names_raise, C99_the_block_is_not_run_refuted, C106_refused_runs_change_nothing, C106_failed_run_keeps_a_prefix, C106_next_run_adds_to_the_prefix, C107_never_recovers, C108_same_data_same_utilities, C108_same_data_same_probabilities, C108_same_data_same_choices, C110_order_of_set_up, C111_last_assignment_counts, C112_every_aggregation_refuted, C112_accepted_aggregations, C112_all_but_quantile, C113_order_of_expressions 

* `FunctionalExtensionality.functional_extensionality_dep` (1 theorems): C73_local_values_of_columns_are_ignored 

* `ClassicalDedekindReals.sig_forall_dec`, `FunctionalExtensionality.functional_extensionality_dep` (2 theorems): C01_cells_partition, C01_cell_width 

* `ClassicalDedekindReals.sig_forall_dec`, `ClassicalDedekindReals.sig_not_dec`, `FunctionalExtensionality.functional_extensionality_dep` (1 theorems): C06_sum_to_one_and_bounds 

* `ClassicalDedekindReals.sig_forall_dec`, `ClassicalDedekindReals.sig_not_dec`, `Classical_Prop.classic`, `FunctionalExtensionality.functional_extensionality_dep` (130 theorems): C01_cell, C01_draw_above_total, C02_sampled_has_positive_probability, C03_zero_probability_last_sampled_refuted, C03_infeasible_alternative_chosen_refuted, C03_only_the_last_partial, C03_below_the_rounding_error_partial, C05_samplers_agree, C06_logit_formula, C07_infeasible_iff, C07_unchecked, C07_flag_irrelevant_otherwise, C08_shift_invariance, C09_ratio, C09_disable_equals_remove, C10_own_probability_increases, C10_others_do_not_increase, C11_order_irrelevant, C12_infinite_utility_refuted, C12_overflow_refuted, C12_no_nan_partial, C14_sum_to_one, C15_positive_iff_available, C15_below_infeasible_nest, C15_error_iff, C15_unchecked_all_zero, C16_collapse_to_multinomial, C17_top_shift_invariance, C18_double, C21_not_reproducible_refuted, C23_lost_one_refuted, C23_single_thread_partial, C27_rows_list_elemental_choices_and_sum_to_one, C28_replacing_a_nest_refuted, C28_flatten_broken_refuted, C29_rejected_readd_refuted, C29_rejected_dotted_name_refuted, C30_nested_add_refuted, C30_readding_refuted, C75_generator_refuted, C38_flat_literal_partial, C38_nested_literal_partial, C38_representable_values_exact, C38_stated_value_refuted, C39_order_of_entries_partial, C39_order_of_entries_flat, C39_order_of_entries_refuted, C45_reserved_word_refuted, C52_same_probabilities_refuted, C53_new_units_refuted, C55_shared_symbol_removed_refuted, C55_symbol_left_refuted, C55_reserved_word_refuted, C56_hidden_name_refuted, C57_delayed_links_refuted, C58_empty_subset_refuted, C76_nest_in_copy_refuted, C76_scale_in_copy_refuted, C74_end_to_end_refuted, C83_exact_logit, C84_exact_choice, C85_logsum_refuted, C85_log_of_the_output_partial, C85_nested_log_of_the_output_partial, C86_bounds_or_nan, C87_sum_close_to_one, C91_subset_copy_raises_refuted, C91_false_label_refuted, C92_nested_bounds, C92_run_bounds, C93_proportional, C93_selects_in_proportion, C93_scale, C93_computed, C94_no_weight_at_all_refuted, C94_worker_refuted, C95_nested_sum, C95_run_sums, C96_choices_follow_the_rows, C96_never_improbable, C96_discrete_returns, C100_shift_of_all_choices, C100_unscaled_refuted, C101_own_probability, C101_other_probabilities, C101_any_scales_refuted, C102_derivative_is_probability, C102_multinomial, C103_order_irrelevant, C104_disable_is_leave_out, C104_last_child_refuted, C105_output_bounds, C105_logsum_bounds, C105_without_nests, C106_a_failed_run_leaves_no_trace_refuted, C107_correcting_the_cause_refuted, B64_nan_absorbs, C109_choice_in_subset_refuted, C113_order_matters_refuted, C113_order_of_out_refuted, C114_texts_unchanged, C114_objects_accepted, C114_categories, C114_integers_unchanged, C114_integers_with_missing, C114_subset_of_rows, C114_missing_equals_text_refuted, C114_integer_changed_refuted, C115_numbers, C115_texts_refuted, C116_constant_everywhere, C116_constant_for_one_choice, C117_snapshot_refuted, C117_converted_data_are_a_snapshot_partial, C117_arrays_are_shown_as_they_are_now, C117_tables_show_the_frame_as_it_is_now, C117_copies_show_the_same_data, C117_subsets_have_their_own_data, C117_subsets_have_their_own_tables, C118_more_for_one_choice, C118_scales_up_to_one_refuted, C119_unit_scales_give_the_logit, C119_same_as_without_nests, C120_same_odds, C120_one_choice_more, C121_constant_at_every_node, C121_constant_everywhere, C121_any_levels_refuted, C122_disabled_is_left_out, C122_order_of_choices 

