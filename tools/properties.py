#!/usr/bin/env python3
"""Source of /verif/properties.jsonl (run: python3 tools/properties.py)."""
import json, os
P = []
def p(id, title, statement, quantifier, why, anchors):
    P.append(dict(id=id, title=title, statement=statement, quantifier=quantifier, why_tests_cant=why, anchors=anchors))

# ---------------------------------------------------------------- sampling
p("C01", "A single draw implements inverse-CDF sampling exactly",
  "Given probabilities p and a draw r, the single-draw sampler returns index i exactly when r (raised to the smallest positive normal double) lies in the half-open cell (p0+..+p(i-1), p0+..+pi]; every draw in (0, sum p] hits exactly one cell, whose width is exactly p_i. If r exceeds the total it returns the last index.",
  "every finite list of non-negative probabilities and every draw r",
  "The probability that a choice is picked equals the width of a real interval; a test can only try some draws of some arrays.",
  ["cheval/core.py:sample_once"])
p("C02", "A zero-probability alternative is never sampled (exact arithmetic)",
  "When the probabilities are non-negative and sum to at least the draw, the sampled alternative has strictly positive probability.",
  "every probability list, every draw in (0, total]",
  "A violation needs a particular coincidence of draw and cumulative sums, including leading/trailing zeros.",
  ["cheval/core.py:sample_once", "cheval/core.py:logarithmic_search"])
p("C03", "In IEEE doubles an infeasible last alternative is never sampled",
  "With double arithmetic, an alternative whose probability is exactly 0 is never returned by the single-draw or multi-draw sampler for any draw the generator can produce (below 1).",
  "every list of doubles produced by normalising non-negative weights, every double draw in (0,1)",
  "Failure needs rounding to leave the cumulative sum below a draw next to 1; probability ~1e-16 per draw.",
  ["cheval/core.py:sample_once", "cheval/core.py:logarithmic_search", "cheval/core.py:simple_sample"])
p("C04", "Binary search terminates and finds the first cell",
  "For every non-empty array of non-decreasing cumulative probabilities and every draw, the binary search terminates and returns the smallest index whose cumulative value is >= the draw, or the last index when there is none; the index is always in range, even for unsorted or NaN input.",
  "every non-empty array (any length), every draw, every comparison order including IEEE doubles with NaN",
  "Loop-bound and off-by-one errors depend on the array length and on runs of equal values.",
  ["cheval/core.py:logarithmic_search"])
p("C05", "Multi-draw and single-draw samplers agree draw by draw",
  "For the same probabilities and the same stream of draws, the multi-draw sampler returns at every position what the single-draw sampler would return for that draw, in IEEE double arithmetic.",
  "every list of non-negative finite doubles, every number of draws, every draw stream of doubles >= the smallest positive normal double",
  "Agreement needs cumulative sums of rounded doubles to be monotone, a fact about all doubles.",
  ["cheval/core.py:sample_multi", "cheval/core.py:nbf_cumsum", "cheval/core.py:logarithmic_search", "cheval/core.py:sample_once"])
# ---------------------------------------------------------------- MNL
p("C06", "Multinomial probabilities follow the logit formula and sum to one",
  "For utilities that are finite or -inf with at least one finite, the returned probability of alternative i is exp(u_i)/sum_j exp(u_j) (0 for -inf), each lies in [0,1], they sum to 1, the logsum output is sum_j exp(u_j) and the per-alternative term is exp(u_i).",
  "every utility vector over the reals extended with -inf, of any length",
  "Statement over a continuum of real vectors of any length.",
  ["cheval/core.py:multinomial_probabilities", "cheval/model.py:ChoiceModel.run_stochastic"])
p("C07", "Multinomial infeasibility is reported exactly when nothing is feasible",
  "With the check on, the error is raised iff every utility is -inf (or there is no alternative); with the check off the same input returns all-zero probabilities and logsum 0, and no other input is affected by the flag.",
  "every utility vector over reals and -inf, both flag values",
  "An iff over all vectors.",
  ["cheval/core.py:multinomial_probabilities"])
p("C08", "Multinomial probabilities are invariant under a common utility shift",
  "Adding the same finite constant to every utility leaves every probability unchanged and multiplies the logsum output by exp(c).",
  "every utility vector, every real constant",
  "Universally quantified over reals.",
  ["cheval/core.py:multinomial_probabilities"])
p("C09", "Independence of irrelevant alternatives",
  "The ratio of the probabilities of two feasible alternatives is exp(u_i-u_j) whatever the other utilities are; disabling an alternative with -inf gives the others the probabilities of the model without it.",
  "every utility vector and pair of alternatives",
  "Universally quantified over reals and positions.",
  ["cheval/core.py:multinomial_probabilities"])
p("C10", "Raising one utility never lowers its probability nor raises another's",
  "If only u_k is increased, p_k increases strictly (when another alternative is feasible) and every other probability does not increase.",
  "every utility vector, position and increase",
  "Monotonicity over a continuum.",
  ["cheval/core.py:multinomial_probabilities"])
p("C11", "Multinomial results do not depend on the order of alternatives",
  "Permuting the alternatives permutes the probabilities and logsum terms accordingly and leaves the logsum unchanged.",
  "every utility vector and permutation",
  "All permutations of all lengths.",
  ["cheval/core.py:multinomial_probabilities"])
p("C12", "No NaN probability for NaN-free utilities",
  "If no utility is NaN, no returned probability is NaN.",
  "every NaN-free utility vector including +inf",
  "Tests rarely include infinities or overflowing utilities.",
  ["cheval/core.py:multinomial_probabilities", "cheval/model.py:ChoiceModel._evaluate_utilities"])
# ---------------------------------------------------------------- nested logit
p("C13", "Nested evaluation satisfies the nested-logit equations in the arithmetic used",
  "For every well-formed node table the third output E satisfies: E=exp(u/s) for a childless node and exp((u+scale*log(sum of E over its children))/s) for a nest, s being the parent's logsum scale (1 at the top or when scaling is off); the second output is the sum of E over top nodes; each childless node's probability is the product along its path of E/(sum of E over its sibling group) (0 for an empty group) and every nest's probability is 0. Sums run in node order.",
  "every tree shape, depth and node order, every utility vector, any arithmetic (IEEE doubles included)",
  "Correctness of a level-by-level in-place array algorithm for all trees.",
  ["cheval/core.py:nested_probabilities"])
p("C14", "Nested probabilities of the elemental choices sum to one",
  "For utilities finite or -inf with positive top logsum, probabilities are in [0,1], those of childless nodes sum to 1, and every nest gets 0.",
  "every well-formed tree and every utility vector over reals and -inf",
  "Sum-to-one over all trees of any depth.",
  ["cheval/core.py:nested_probabilities", "cheval/model.py:ChoiceModel.run_stochastic"])
p("C15", "An infeasible nest is switched off and the rest still sums to one",
  "If all children of a nest are infeasible (E=0) then the nest and all its descendants get probability 0, while the total over childless nodes remains 1 as long as some top node is feasible; the error is raised iff every top node is infeasible and the check is on; with the check off everything is 0.",
  "every well-formed tree and utility vector",
  "log(0) paths in every nest position.",
  ["cheval/core.py:nested_probabilities"])
p("C16", "Nested logit with unit scales and zero nest utilities collapses to multinomial logit",
  "If every logsum scale is 1 and every nest has utility 0, every childless node gets the multinomial probability computed over the childless nodes alone, and the top logsum equals the multinomial logsum.",
  "every well-formed tree, every utility vector of its leaves",
  "Relates two algorithms on all trees.",
  ["cheval/core.py:nested_probabilities", "cheval/core.py:multinomial_probabilities"])
p("C17", "Nested probabilities are invariant under a shift of all top-level utilities",
  "Adding one constant to the utility of every top-level node (children unchanged) leaves all probabilities unchanged.",
  "every well-formed tree, utility vector and real constant",
  "Universal over reals and trees.",
  ["cheval/core.py:nested_probabilities"])
p("C18", "A one-level nested evaluation equals the multinomial evaluation",
  "When no node has a parent, nested evaluation returns exactly the multinomial probabilities, logsum and terms, in any arithmetic.",
  "every utility vector, any arithmetic",
  "Equality of two programs on all inputs.",
  ["cheval/core.py:nested_probabilities", "cheval/core.py:multinomial_probabilities"])
# ---------------------------------------------------------------- parallel workers
p("C19", "Row-parallel workers give the sequential result under every schedule",
  "For every order in which threads execute and interleave the row tasks, the probability/logsum/term tables equal the row-by-row application of the single-row function.",
  "every number of rows, every interleaving of the per-row writes",
  "Schedules cannot be enumerated by tests.",
  ["cheval/core.py:worker_multinomial_probabilities", "cheval/core.py:worker_nested_probabilities", "cheval/core.py:worker_multinomial_sample", "cheval/core.py:worker_nested_sample"])
p("C20", "Discrete results depend on the seed only, not on threads",
  "With a fixed integer seed, the discrete workers return the same choices for every number of threads, every assignment of rows to threads and every prior generator state of those threads, both for one and for several draws.",
  "every seed, row count, draw count, thread assignment and initial thread-local generator states",
  "Thread-local random state and scheduling.",
  ["cheval/core.py:worker_multinomial_sample", "cheval/core.py:worker_nested_sample", "cheval/core.py:generate_rand_ints_for_parallel", "cheval/core.py:generate_rand_floats_for_parallel", "cheval/model.py:ChoiceModel.run_discrete"])
p("C21", "Weighted sampling worker is reproducible and supports several draws",
  "The weighted-sample worker is reproducible from its seed whatever the threads, and for n>1 returns n draws per row.",
  "every weights table, n and seed",
  "Thread-local random state; failure only for some n.",
  ["cheval/core.py:worker_weighted_sample", "cheval/core.py:simple_multisample"])
p("C22", "Indexed parallel addition equals the sequential addition under every interleaving",
  "When the row and column indexers contain no repeated position, every interleaving of the reads and writes of the parallel loop ends with out[ri[i],ci[j]] increased by addition[i,j] and every other cell unchanged; bad shapes or out-of-range indexers are rejected before any write.",
  "every matrix size, indexer and interleaving",
  "Data races depend on the schedule.",
  ["cheval/core.py:fast_indexed_add"])
p("C23", "Indexed parallel addition with repeated labels accumulates all contributions",
  "When the partial table repeats a row label, all its rows are added to that decision unit.",
  "every partial table whose index repeats a label, every interleaving",
  "Lost updates are schedule dependent.",
  ["cheval/core.py:fast_indexed_add", "cheval/model.py:ChoiceModel.add_partial_utilities"])
# ---------------------------------------------------------------- tree
p("C24", "The choice tree stays consistent through every build history",
  "After any sequence of add_choice/add_choices/node.add_choice calls that never re-uses an existing full name, every node is stored under its dotted full name, its parent is in the model, its level is its parent's level + 1, it is a nest exactly when some stored node names it as parent, and its logsum scale is in (0,1].",
  "every finite history of tree-building calls",
  "Invariant over unbounded histories.",
  ["cheval/model.py:ChoiceModel._create_node", "cheval/model.py:ChoiceModel.add_choice", "cheval/api.py:ChoiceNode"])
p("C25", "Choice labels are unique and in insertion order",
  "Distinct nodes get distinct labels (names for flat models, '.'-padded tuples for nested ones); the label of a node spells its path; labels are listed in insertion order.",
  "every tree built by any history",
  "Uniqueness over all names and shapes.",
  ["cheval/model.py:ChoiceModel.choices", "cheval/api.py:ChoiceNode.nested_id", "cheval/api.py:ChoiceNode.full_name"])
p("C26", "The flattened arrays faithfully encode the tree",
  "For every consistent tree of depth > 1, hierarchy gives each node's parent position (-1 at top), levels the depth from 0, logsum scales the node's scale for nests and 1 for others, bottom flags mark exactly the childless nodes; these arrays meet the precondition of the nested evaluation.",
  "every consistent tree",
  "All shapes and insertion orders.",
  ["cheval/model.py:ChoiceModel._flatten"])
p("C27", "Stochastic results list exactly the elemental choices and sum to one",
  "For a validated model without +inf/NaN utilities and a feasible top choice, the returned table has one column per elemental choice, in insertion order, labelled by it, and each row sums to 1.",
  "every model and every utility table",
  "Composition of tree, flattening, evaluation and column filtering.",
  ["cheval/model.py:ChoiceModel.run_stochastic", "cheval/model.py:ChoiceModel._build_nested_stochastic_frame", "cheval/model.py:ChoiceModel.elemental_choices"])
p("C28", "Re-adding a choice replaces it and everything under it",
  "After add_choice(name) for an existing top-level nest, the old nest's children are gone and the new choice behaves like a fresh childless choice.",
  "every tree and existing nest name",
  "Needs a particular history.",
  ["cheval/model.py:ChoiceModel._create_node"])
p("C29", "A rejected add_choice leaves the model unchanged",
  "If add_choice raises (bad name or scale), the set of choices is as before.",
  "every tree and invalid argument",
  "Needs error paths in every state.",
  ["cheval/model.py:ChoiceModel._create_node", "cheval/api.py:ChoiceNode.__init__"])
p("C30", "Changing the tree invalidates cached partial utilities",
  "After any call that changes the set of choices, cached partial utilities are dropped, so the next evaluation starts from a table matching the new choices.",
  "every history with cached utilities followed by a tree change at any level",
  "History dependent.",
  ["cheval/model.py:ChoiceModel.add_choice", "cheval/api.py:ChoiceNode.add_choice"])
p("C31", "Tree validation accepts exactly the well-formed trees",
  "validate() of the tree succeeds iff there are at least two top-level choices and no nest with exactly one child.",
  "every tree",
  "iff over all trees.",
  ["cheval/model.py:ChoiceModel.validate"])
# ---------------------------------------------------------------- expressions
p("C32", "Expression rewriting preserves meaning",
  "For expressions whose and/or/not operands are boolean, the rewritten expression (&, |, ~, split comparisons, substituted attribute chains and dict literals) evaluates to the same value as the original under every assignment of the symbols.",
  "every supported expression and environment",
  "Induction over all syntax trees.",
  ["cheval/parsing/ast_transformer.py:ExpressionParser"])
p("C33", "Every symbol an expression reads is registered",
  "After parsing, every free name of the rewritten expression is a registered simple symbol, a generated substitution, a reserved word or a function name; so validation and evaluation see it.",
  "every supported expression",
  "Induction over all syntax trees.",
  ["cheval/parsing/ast_transformer.py:ExpressionParser", "cheval/parsing/expressions.py:Expression.parse"])
p("C34", "A symbol is never both simple and chained",
  "Across every history of accepted and rejected expressions in one container, no symbol is recorded both as simple and as chained, and every inconsistent use is rejected.",
  "every history of appended expressions, grouped or not",
  "Invariant over histories.",
  ["cheval/api.py:ExpressionGroup.append", "cheval/parsing/ast_transformer.py:ExpressionParser.visit_name", "cheval/parsing/ast_transformer.py:ExpressionParser.visit_attribute"])
p("C35", "A rejected expression leaves the container unchanged",
  "If append raises, later validation and parsing behave as if it had not been called.",
  "every container state and rejected expression",
  "Error paths in every state.",
  ["cheval/api.py:ExpressionGroup.append"])
p("C36", "Generated substitution names never clash",
  "Within one expression, distinct chained usages get distinct substitution names.",
  "every expression",
  "Clash needs more than ten usages of one symbol and a digit-suffixed twin.",
  ["cheval/parsing/expr_items.py:ChainedSymbol._make_sub"])
p("C37", "The '@' filter is split off correctly",
  "e@f splits into the stripped parts; text without '@' has no filter and is kept verbatim; more than one '@' is rejected.",
  "every string",
  "All strings.",
  ["cheval/parsing/expressions.py:_split_filter"])
p("C38", "Dict literals assign the stated value to the stated choices and 0 elsewhere",
  "For a flat model {k1: v1, ...} yields v for each key's choice (last one wins) and 0 for all other choices; unknown keys are errors. In a nested model a key A.B sets only that node, and A.B._ sets every node strictly below A.B.",
  "every literal and choice set",
  "All key sets, trees and entry orders.",
  ["cheval/parsing/expressions.py:Expression._insert_dict_val", "cheval/parsing/expressions.py:Expression._prepare_dict_literals"])
p("C39", "Dict literal entries for different nodes do not interfere",
  "The order of the entries of a dict literal with distinct, non-overlapping meanings (node A and the children of A) does not change the result.",
  "every nested choice set and literal",
  "Order dependence.",
  ["cheval/parsing/expressions.py:Expression._insert_dict_val"])
p("C40", "An expression filtered by '@ choice' changes only that column",
  "Evaluating a filtered expression adds, in the chosen column only, what the unfiltered expression would have added there; every other column is unchanged.",
  "every expression, table and choice",
  "Universal over expressions and data.",
  ["cheval/model.py:ChoiceModel._kernel_eval", "cheval/model.py:ChoiceModel._make_column_mask"])
p("C41", "Expression containers: groups are independent and ordered",
  "Evaluation order is ungrouped expressions in order of appending, then groups in order of first use; get_group returns exactly the expressions appended to it; drop_group removes only that group; unknown groups raise KeyError; copying preserves the iteration.",
  "every history of container operations",
  "Histories.",
  ["cheval/api.py:ExpressionGroup"])
p("C42", "Concatenating or copying containers does not alias them",
  "Appending to a copy or to a sum of containers never changes the operands.",
  "every container history",
  "Aliasing shows only after later updates.",
  ["cheval/api.py:ExpressionGroup.copy", "cheval/api.py:ExpressionGroup.__add__"])
# ---------------------------------------------------------------- scope and evaluation
p("C43", "Reserved words can never be declared",
  "In every reachable state no scope symbol is named NAN, OUT or NEG_INF; attempts raise and change nothing.",
  "every history",
  "Invariant over histories.",
  ["cheval/model.py:ChoiceModel._check_symbol_name"])
p("C44", "Changing decision units empties every dependent symbol",
  "After setting decision units every non-number symbol is unassigned (so validation fails until it is re-assigned) and number symbols keep their value.",
  "every scope",
  "All scopes and histories.",
  ["cheval/model.py:ChoiceModel.decision_units"])
p("C45", "A validated model never fails on a missing or empty symbol",
  "If validate() succeeds, utility evaluation finds every registered symbol declared and assigned.",
  "every model state",
  "Universal over states.",
  ["cheval/model.py:ChoiceModel.validate", "cheval/model.py:ChoiceModel._evaluate_utilities"])
p("C46", "Vectors and tables are only accepted when aligned",
  "assign() of a vector or table succeeds only if its index equals the decision units (or choices), and the stored data is then the row/column vector of the same values; otherwise it raises and the symbol is unchanged.",
  "every index and data",
  "Universal over data.",
  ["cheval/api.py:VectorSymbol.assign", "cheval/api.py:TableSymbol.assign"])
p("C47", "Matrix assignment aligns by label and fills the rest",
  "When only the rows or only the columns need reindexing, cell (r,c) of the stored matrix is the data cell with those labels, or the fill value when absent; labels not in the model are rejected; mismatches are rejected when reindexing is off.",
  "every label set, data and orientation",
  "Universal over label permutations/subsets.",
  ["cheval/api.py:MatrixSymbol.assign"])
p("C48", "Matrix assignment works when both rows and columns need reindexing",
  "With reindexing allowed on both axes, a matrix covering a subset of both is accepted and aligned.",
  "every label set",
  "Depends on shape combinations.",
  ["cheval/api.py:MatrixSymbol.assign"])
p("C49", "allow_links=False rejects LinkedDataFrames and accepts plain frames",
  "A table symbol declared with allow_links=False accepts a plain aligned DataFrame and rejects a LinkedDataFrame.",
  "every aligned table",
  "Decision logic over both kinds.",
  ["cheval/api.py:TableSymbol.assign"])
p("C50", "Utility tables are the sum of the expression contributions",
  "From a fresh model, each cell of the utility table is the sum, in evaluation order, of the values of the unfiltered expressions and of those filtered to that column.",
  "every history of calls that builds the choices before assigning data, every data and expression list whose symbols cannot collide with generated names (see C36)",
  "Universal.",
  ["cheval/model.py:ChoiceModel._evaluate_utilities", "cheval/model.py:ChoiceModel._kernel_eval"])
p("C51", "NaN utilities never reach the probability stage",
  "If any cell of the utility table is NaN, the run raises instead of returning a result.",
  "every table",
  "Universal.",
  ["cheval/model.py:ChoiceModel._evaluate_utilities"])
p("C52", "Running a model twice gives the same result",
  "Two consecutive runs with unchanged inputs return the same probabilities.",
  "every model",
  "History dependent state.",
  ["cheval/model.py:ChoiceModel._partial_utilities", "cheval/model.py:ChoiceModel._evaluate_utilities"])
p("C53", "Changing decision units restarts utility evaluation",
  "After setting new decision units, a run depends only on data assigned since.",
  "every model history",
  "History dependent state.",
  ["cheval/model.py:ChoiceModel.decision_units", "cheval/model.py:ChoiceModel._partial_utilities"])
p("C54", "Pre-evaluating a group does not change the final utilities",
  "preval(group) followed by a run gives, in exact arithmetic, the utilities of a single run over all expressions (none of which reads OUT).",
  "every model, group and data",
  "Universal.",
  ["cheval/model.py:ChoiceModel.preval"])
p("C55", "preval cleans exactly the symbols no other expression needs",
  "With cleanup on, preval removes from scope exactly the symbols used by the group and by no other expression, so later runs of the other groups still validate.",
  "every expression container history",
  "Set algebra over all usages.",
  ["cheval/model.py:ChoiceModel.preval"])
p("C56", "A copied model gives the same results and is isolated",
  "copy() of a model runs to the same utilities, and running or extending the copy's scope, expressions or utilities never changes the original.",
  "every model state and later operations",
  "Aliasing.",
  ["cheval/model.py:ChoiceModel.copy"])
p("C57", "copy_subset commutes with evaluation",
  "Running copy_subset(mask) stochastically equals running the whole model and keeping the masked rows.",
  "every model, data and mask",
  "Universal.",
  ["cheval/model.py:ChoiceModel.copy_subset", "cheval/api.py:VectorSymbol.copy", "cheval/api.py:TableSymbol.copy", "cheval/api.py:MatrixSymbol.copy"])
p("C58", "External partial utilities are added by label",
  "add_partial_utilities adds each cell to the decision unit and choice with its labels and changes nothing else; unknown labels or disallowed mismatches raise and change nothing.",
  "every table and label set without repeated labels",
  "Universal.",
  ["cheval/model.py:ChoiceModel.add_partial_utilities", "cheval/core.py:fast_indexed_add"])
p("C59", "Discrete results translate sampled positions to the right labels",
  "Each returned value is the label (or position for astype='index') of the sampled choice for that decision unit and draw; shape follows n_draws and squeeze.",
  "every raw result table",
  "Universal.",
  ["cheval/model.py:ChoiceModel._convert_result"])
# ---------------------------------------------------------------- linked data frames
p("C60", "Link lookups follow the keys",
  "Reading a column through a non-aggregating link returns, for each row, the value of the unique target row with that row's key, or the fill value when there is none; the target frame is not changed. Only a target without rows cannot be read from (IndexError) when there are rows to look up.",
  "every pair of frames and key columns",
  "Universal over data.",
  ["cheval/ldf/api.py:_LinkMeta._make_indexer", "cheval/ldf/api.py:LinkedDataFrame._BaseNode._resolve_history"])
p("C61", "Chained lookups compose",
  "a.b.c.col returns for each row of a the value reached by following the keys through b and c, with the fill value when any step is missing (every target on the way having rows).",
  "every chain length and data",
  "Induction over chains.",
  ["cheval/ldf/api.py:LinkedDataFrame._LinkNode", "cheval/ldf/api.py:LinkedDataFrame._BaseNode._resolve_history"])
p("C62", "Link cardinality is classified correctly",
  "link_to reports aggregation iff own keys are unique and target keys repeat; both repeating is rejected and leaves the links unchanged; the fast path for identical keys agrees with the general lookup.",
  "every pair of key columns",
  "Universal.",
  ["cheval/ldf/api.py:_LinkMeta._determine_aggregation", "cheval/ldf/api.py:_LinkMeta._make_indexer"])
p("C63", "Aggregations are computed over exactly the matching rows",
  "For an aggregating link without null keys, the value for each row is the aggregate of the target rows with that key, in order, or the fill (int_fill for integer/boolean data, NaN for float) when there are none.",
  "every data and aggregation function",
  "Universal.",
  ["cheval/ldf/api.py:LinkedDataFrame._LeafAggregation._Aggregator.__call__"])
p("C64", "Aggregations are right even when target keys contain nulls",
  "Target rows with a null key are ignored and do not disturb the other groups.",
  "every data with null keys",
  "Needs null keys.",
  ["cheval/ldf/api.py:_LinkMeta._make_indexer", "cheval/ldf/api.py:LinkedDataFrame._LeafAggregation._Aggregator.__call__"])
p("C65", "Slicing commutes with link lookups",
  "ldf[slice][link][column] == ldf[link][column][slice] for every row selection (with repetition and reordering, repeatedly applied).",
  "every frame, link and sequence of row selections",
  "Universal over histories of slices.",
  ["cheval/ldf/api.py:_LinkMeta.copy", "cheval/ldf/api.py:LinkedDataFrame.__subset_links"])
p("C66", "Row reordering operations keep links aligned",
  "Operations that only go through finalisation, such as sort_values, keep each row linked to its own target.",
  "every frame and permutation",
  "Silent misalignment.",
  ["cheval/ldf/api.py:LinkedDataFrame.__finalize__", "cheval/ldf/api.py:_LinkMeta.copy_meta"])
p("C67", "Reindexing marks new rows as unlinked",
  "Rows introduced by reindex (absent from the original) read the fill value through every link.",
  "every frame and new index",
  "Needs a missing label and a look through a link.",
  ["cheval/ldf/api.py:LinkedDataFrame._reindex_with_indexers", "cheval/ldf/api.py:_LinkMeta.copy"])
p("C68", "Refreshing indexers makes links current",
  "After compute_indexers(refresh=True), lookups follow the current keys of both frames.",
  "every history of key edits",
  "Stale caches.",
  ["cheval/ldf/api.py:LinkedDataFrame.compute_indexers", "cheval/ldf/api.py:_LinkMeta.indexer_and_missing"])
p("C69", "Delayed indexing gives the same results as precomputation",
  "A link created with precompute=False returns the same lookups and aggregations as one created with precompute=True.",
  "every frame, link kind and data",
  "Order of lazy initialisation.",
  ["cheval/ldf/api.py:LinkedDataFrame.link_to", "cheval/ldf/api.py:_LinkMeta.indexer_and_missing", "cheval/ldf/api.py:LinkedDataFrame._LeafAggregation._Aggregator.__call__"])
p("C70", "Fill values follow the documented precedence",
  "Through a link to a LinkedDataFrame a column fill wins over the instance default for its dtype, which wins over the built-in default; links to plain frames use the class default; reset restores the built-in defaults; changing one frame's fills affects no other frame.",
  "every history of fill settings",
  "Histories.",
  ["cheval/ldf/missing_data.py:SeriesFillManager", "cheval/ldf/api.py:LinkedDataFrame._get_fill"])
p("C71", "Class-level fill defaults affect new LinkedDataFrames",
  "After set_fill_defaults on the class, LinkedDataFrames created later use these defaults when they are the target of a link.",
  "every setting",
  "Documented behaviour across objects.",
  ["cheval/ldf/api.py:LinkedDataFrame.__init__", "cheval/ldf/api.py:LinkedDataFrame.set_fill_defaults"])
p("C72", "link_to resolves its arguments as documented",
  "on overrides on_self/on_other, levels overrides self_levels/other_levels, giving both kinds for one side is rejected, giving none uses the index; mismatching numbers of levels are rejected; a rejected call leaves the links unchanged.",
  "every combination of arguments",
  "Decision table over all combinations.",
  ["cheval/ldf/api.py:LinkedDataFrame.link_to", "cheval/ldf/api.py:_IndexMeta"])
p("C73", "local_dict replaces frame operands in evaluate()",
  "In LinkedDataFrame.evaluate a name given in local_dict is used instead of the frame's column of that name.",
  "every frame and local_dict",
  "Documented precedence.",
  ["cheval/ldf/api.py:LinkedDataFrame.evaluate"])
p("C74", "Aggregating through one link works inside utility expressions",
  "In a utility expression, table.link.func(expr) aggregates over the link as it does in LinkedDataFrame.evaluate.",
  "every table symbol with an aggregating link",
  "Depends on the chain length.",
  ["cheval/api.py:TableSymbol._get", "cheval/parsing/ast_transformer.py:ExpressionParser"])
p("C75", "add_choices adds every given name",
  "add_choices(names, logsum_scales) with new, distinct, valid names adds all of them in order, with the given scales (1 when none are given), whatever kind of iterable names is.",
  "every model, every iterable of names",
  "Depends on the kind of iterable and on every length.",
  ["cheval/model.py:ChoiceModel.add_choices"])
p("C76", "Changing the choices of a copy does not change the original",
  "copy() always copies the tree of choices: adding choices to a copy, nesting choices in it, or setting a logsum scale in it changes neither the choices nor the probabilities of the original.",
  "every history of tree operations on models and their copies",
  "Aliasing of node objects between models.",
  ["cheval/model.py:ChoiceModel.copy", "cheval/model.py:ChoiceModel.copy_subset", "cheval/api.py:ChoiceNode.add_choice"])
p("C77", "Reading has no effect on what is read later",
  "Reads (subscripts through links, aggregations, evaluate) change neither the data of any frame nor the result of any later read, whatever was linked, sliced, edited or reindexed before.",
  "every history, every sequence of reads in between, every read",
  "Stored indexers are filled by reads in every order; all orders must agree.",
  ["cheval/ldf/api.py:_LinkMeta.indexer", "cheval/ldf/api.py:_LinkMeta.missing_indices", "cheval/ldf/api.py:LinkedDataFrame.evaluate"])
p("C78", "Reading through a link is without lasting effect",
  "Whether a link was read before an edit of the key columns does not change what is read after the edit.",
  "every history of edits and reads",
  "Universal over histories.",
  ["cheval/ldf/api.py:_LinkMeta.indexer", "cheval/ldf/api.py:_LinkMeta.precompute"])
p("C79", "link_to accepts every documented argument and raises the documented error",
  "An integer level number is accepted as an argument; a call that is rejected raises LinkageSpecificationError.",
  "every call of link_to",
  "Depends on the form of every argument.",
  ["cheval/ldf/api.py:LinkedDataFrame.link_to", "cheval/ldf/api.py:_IndexMeta"])
p("C80", "Every supported aggregation works on every column type it allows",
  "count, first and last, which are allowed for non-numeric columns, return a result for columns of floats and texts.",
  "every link, column type and data",
  "Needs every type; the failure does not depend on the data.",
  ["cheval/ldf/api.py:LinkedDataFrame._LeafAggregation._Aggregator.__call__", "cheval/ldf/api.py:LinkedDataFrame._BaseNode._resolve_history"])
p("C81", "count(condition) counts the rows for which the condition holds",
  "link.count('age > 18') is for each row the number of linked rows for which the condition holds (LinkedDataFrame.md 121).",
  "every link, condition and data",
  "Universal.",
  ["LinkedDataFrame.md", "cheval/ldf/api.py:LinkedDataFrame._LeafAggregation._Aggregator.__call__"])
p("C82", "Whole runs: utilities are the sums of the expression texts",
  "After any orderly history of calls (tree, decision units, scope, expressions, in any order), the utility of every decision unit and choice used by a run is the sum, in order of addition, of the values of the expression texts as written (operators, comparisons, and/or/not, links, dict literals, '@' filters), with every symbol standing for the data assigned to it.",
  "every orderly history, expression text, data, cell and group",
  "Quantifies over all histories, texts and data; tests fix one of each.",
  ["cheval/model.py:ChoiceModel.run_discrete", "cheval/model.py:ChoiceModel.run_stochastic", "cheval/model.py:ChoiceModel._evaluate_utilities", "cheval/api.py:ExpressionSubGroup", "cheval/utils.py"])
p("C83", "run_stochastic returns the logit solution of those utilities",
  "The three outputs of run_stochastic are, for every decision unit, the probabilities labelled with the choices without children, the top-level term and the terms of all choices, and together they solve the (nested) logit equations for the utilities of C82.",
  "every orderly history, tree, data, unit and group",
  "Universal over histories and trees.",
  ["cheval/model.py:ChoiceModel.run_stochastic", "cheval/core.py:worker_nested_probabilities", "cheval/core.py:worker_multinomial_probabilities"])
p("C84", "run_discrete returns the choice selected by the random number of (seed, unit, draw)",
  "Under every schedule of the threads, the result of run_discrete is labelled with the decision units, and the entry for unit r and draw j shows the choice that the random number determined by the seed, r and j selects from the probabilities of C83; the call returns exactly when every unit has a feasible choice.",
  "every orderly history, seed, number of draws, schedule and generator",
  "Schedules cannot be enumerated by tests; universal over histories and data.",
  ["cheval/model.py:ChoiceModel.run_discrete", "cheval/core.py:worker_nested_sample", "cheval/core.py:worker_multinomial_sample"])
p("C85", "The top-level logsum is the expected maximum utility",
  "The second output of run_discrete and run_stochastic ('top-level logsum term') is the logsum ln(sum exp(u)): adding a constant to every utility adds it to the output.",
  "all utilities with a feasible choice",
  "Universal over real vectors.",
  ["cheval/model.py:ChoiceModel.run_stochastic", "cheval/core.py:multinomial_probabilities"])
p("C86", "Computed probabilities are in [0, 1], and NaN exactly when an exponential overflows",
  "Computed in IEEE doubles with any library exponential that never returns NaN for a number nor a negative value: for utilities without NaN, whenever the multinomial evaluator returns, every probability is a finite number in [0, 1], except the alternatives whose exponential is infinite, whose probability is NaN.",
  "every number of alternatives and every vector of doubles (finite or infinite), every such exponential",
  "Universal over floating-point vectors, including rounding and overflow.",
  ["cheval/core.py:multinomial_probabilities"])
p("C87", "Computed probabilities sum to 1 up to a stated rounding error",
  "Computed in IEEE doubles, if the sum of the exponentials does not overflow, the probabilities of n alternatives differ in sum from 1 by at most 2n * 2^-53.",
  "every vector of n doubles without NaN, n <= 2^51, every exponential as in C86",
  "An error bound for all inputs; tests sample a few.",
  ["cheval/core.py:multinomial_probabilities"])
p("C88", "Utilities over linked tables follow the keys of the data",
  "In a choice model whose table symbol x holds a LinkedDataFrame, an expression x.link1. ... .column gives each decision unit the value of the column in the row reached by following the keys of the data (the fill value where a key has no match), and x.link1. ... .linkn.f(e) the aggregate of e over exactly the rows whose keys match.",
  "every orderly history of frames and of models, every chain of links, every row and choice",
  "Composition of lookups, rewriting, scoping and evaluation for all data; tests check single configurations.",
  ["cheval/api.py:TableSymbol", "cheval/ldf/api.py:LinkedDataFrame", "cheval/model.py:ChoiceModel._evaluate_utilities"])
p("C89", "A run adds its expressions to the utilities that are already there",
  "When partial utilities are cached, run_stochastic and run_discrete give every (decision unit, choice) the cached value plus the expressions that apply. In particular, after tables were given to add_partial_utilities, every utility is what the tables say about that unit and that choice (by label, in the order of the calls; nothing where a table does not mention them) plus the expressions.",
  "every orderly history, every sequence of tables with distinct labels, every schedule of the threads that add them, every group and text",
  "Ranges over histories, label orders and thread schedules; tests add one table.",
  ["cheval/model.py:ChoiceModel.add_partial_utilities", "cheval/model.py:ChoiceModel._evaluate_utilities", "cheval/core.py:fast_indexed_add"])
p("C90", "debug_results shows one decision unit after each expression, and debugging changes nothing else",
  "With debug_id set to the label of a decision unit, debug_results has one row for each expression of the run, labelled by its text, over the choices: row j holds what the utilities of that unit were before the run plus the expressions 0..j that apply to each choice, and the last row holds its utilities in the run; the record is made even if the run raises UtilityBoundsError. All results, errors, tables and copies are the same as without debug_id.",
  "every history of calls on several models, every label among the decision units (not false for Python), every expression and choice",
  "Ranges over histories and expressions; a test compares one run with and without debugging.",
  ["cheval/model.py:ChoiceModel.debug_id", "cheval/model.py:ChoiceModel.debug_results", "cheval/model.py:ChoiceModel._evaluate_utilities"])
p("C91", "Debugging works with the label of any decision unit and does not make runs fail",
  "Setting debug_id to the label of any decision unit makes the runs record it, and never makes a run raise, on the model or on its copies.",
  "every label, every history, every copy and subset",
  "Needs the label 0, or a subset without the unit, in combination with debugging.",
  ["cheval/model.py:ChoiceModel._evaluate_utilities", "cheval/model.py:ChoiceModel.copy_subset"])
p("C92", "Computed probabilities of any model, nested ones included, are numbers in [0, 1] or NaN",
  "In IEEE doubles, every probability computed for a nested model (and hence every probability run_stochastic returns) is in [0, 1] or is NaN, and none in the row of a decision unit whose returned terms (exponentials) are finite is NaN, whatever the utilities, the scales and the logarithm.",
  "every tree, every utility, scale and rounding; every history of calls (trees built by adding choices), every group",
  "Rounding, underflow and overflow over all trees and utilities; tests use tolerances on one tree.",
  ["cheval/core.py:nested_probabilities", "cheval/model.py:ChoiceModel.run_stochastic"])
p("C93", "Sampling from weights follows the proportions of the weights",
  "simple_probabilities gives each alternative its share of the total weight; simple_sample selects an alternative for an interval of random numbers whose length is that share, whatever the scale of the weights, and never one of weight 0; in doubles the shares are in [0, 1], sum to 1 within 2n half-units, and a zero weight is not selected except by numbers within 2n half-units of 1. worker_weighted_sample does this in each row with a number that was drawn, under every schedule.",
  "every array of nonnegative weights with a positive finite total, every random number, every schedule",
  "Ranges over all weights and random numbers; tests check a histogram.",
  ["cheval/core.py:simple_probabilities", "cheval/core.py:simple_sample", "cheval/core.py:worker_weighted_sample"])
p("C94", "Weights that are all zero are reported",
  "Sampling from an array of weights without a positive one raises, as sampling from utilities that are all infeasible does (UtilityBoundsError).",
  "every length, every random number, every schedule",
  "Needs a degenerate row; the tests have none.",
  ["cheval/core.py:simple_probabilities", "cheval/core.py:simple_sample", "cheval/core.py:worker_weighted_sample"])
p("C95", "Computed probabilities of nested models sum to one up to rounding",
  "In IEEE doubles the probabilities nested_probabilities computes for a tree of n nodes sum to 1 within 4n half-units in the last place, and so does every row run_stochastic returns, when the returned terms (exponentials) can be added without overflow.",
  "every tree of up to 2^51 nodes, every utility, positive scale and rounding; every history of calls (trees built by adding choices), every group",
  "Rounding accumulates along every path of the tree, and nests may have no feasible choice; tests use tolerances on one tree.",
  ["cheval/core.py:nested_probabilities", "cheval/model.py:ChoiceModel.run_stochastic"])
p("C96", "Discrete runs select from the probabilities that stochastic runs return",
  "For one state of a model, run_discrete returns whenever run_stochastic does, with the same logsums, and the choice it reports for a decision unit and draw is the first choice in the row returned by run_stochastic whose running sum of probabilities reaches the random number of (seed, unit, draw), if their sum does; that choice has a positive probability. In doubles the sum reaches every number up to 1 - 5n half-units for a tree of n nodes, so an infeasible choice or a nest is never reported for those.",
  "every tree (nested or not), history, number of draws, seed, schedule, utility, scale and rounding",
  "Links two APIs for all states and random numbers; tests compare histograms.",
  ["cheval/model.py:ChoiceModel.run_discrete", "cheval/model.py:ChoiceModel.run_stochastic", "cheval/core.py:worker_multinomial_sample", "cheval/core.py:worker_nested_sample"])
p("C97", "A link's name stands for what the last link_to gave it; link_summary lists the links",
  "After any history, get_link_target(name) on a linked frame returns the frame that the last successful link_to(..., name, ...) on it was given (or on the frame it was sliced, copied, grouped or reindexed from, at that moment) and raises KeyError when there is none; refused link_to calls change nothing. link_summary() has one row per name, in the order the names were first used, with the labels of both sides as documented for the arguments, what link_to returned about aggregation, the present shape of the target, and whether the target supports links. 'preindexed' is precompute right after link_to and True for all links after compute_indexers().",
  "every history of operations on linked frames, frame and name",
  "Quantifies over histories of linking, slicing, copying, editing and reading.",
  ["cheval/ldf/api.py:LinkedDataFrame.get_link_target", "cheval/ldf/api.py:LinkedDataFrame.link_summary", "cheval/ldf/api.py:LinkedDataFrame.link_to", "cheval/ldf/api.py:LinkedDataFrame.compute_indexers"])
p("C98", "A pivot table is the one pandas makes from the named columns and lookups",
  "pivot_table(values, index, columns) on a linked frame equals pandas' pivot_table on a plain frame with the same index and one column per name given: the frame's column of that name, else the result of evaluate(name). Each argument may be a name, an array, or a list of names. Nothing in the frame changes. (False for lists: any list with a name in it raises TypeError.)",
  "every history, frame, argument and pandas",
  "Quantifies over frames, links and expressions; the existing tests use one name per argument.",
  ["cheval/ldf/api.py:LinkedDataFrame.pivot_table", "cheval/ldf/api.py:LinkedDataFrame._resolve_columns"])
p("C99", "temporary_fill_defaults changes the fill values for the length of a block, and restores them",
  "Inside 'with x.temporary_fill_defaults(**kw)' reads use the given fill values, and afterwards the fill values are exactly what they were, also when a name is unknown or the block raises. (The restoring part holds; the block can never run: the manager's method has no yield and the frame's method is a bare generator.)",
  "every fill settings, keyword arguments and block",
  "Restoration must hold for all settings, orders and failures.",
  ["cheval/ldf/missing_data.py:SeriesFillManager.temporary_fill_defaults", "cheval/ldf/api.py:LinkedDataFrame.temporary_fill_defaults"])
p("C100", "Adding one constant to every elemental choice's utility changes no nested probability",
  "With scaled utilities (scale_utilities on), adding a constant c to the utility of every elemental choice of a nested model leaves every probability unchanged and multiplies the top-level output by e^c. (Without scaling it does change probabilities.)",
  "every well-formed tree, positive scales, utilities finite or -inf, constant and check setting",
  "The factor must travel through every depth and shape of tree; a test fixes one tree.",
  ["cheval/core.py:nested_probabilities"])
p("C101", "Nested models: raising one choice's utility never lowers its probability nor raises another's",
  "If only the utility of one elemental choice is raised, its own probability does not fall, and rises strictly if it was strictly between 0 and 1, for all positive scales; no other choice's probability rises if every nest's scale is at most that of the nest around it (1 at the top). (Without that condition on the scales another choice can gain.)",
  "every well-formed tree, positive scales, utilities finite or -inf, choice and raise",
  "An inequality over all trees and reals.",
  ["cheval/core.py:nested_probabilities"])
p("C102", "The derivative of the logsum with respect to a choice's utility is its probability",
  "The derivative of the log of the top-level output with respect to the utility of an elemental choice equals the returned probability of that choice (Williams-Daly-Zachary), when utilities are scaled or the model is flat; without scaling it is the probability times the product of the scales of the nests above the choice.",
  "every well-formed tree, positive scales, utilities, elemental choice and point",
  "A statement about a limit, at every point of every model.",
  ["cheval/core.py:nested_probabilities", "cheval/core.py:multinomial_probabilities"])
p("C103", "Nested results do not depend on the order in which choices are numbered",
  "Renumbering the nodes of a tree (keeping parents, utilities and the scales of nests) permutes the probabilities accordingly and leaves the top-level output unchanged; the scales of elemental choices play no part.",
  "every pair of well-formed node tables related by a renumbering",
  "All trees and all permutations.",
  ["cheval/core.py:nested_probabilities"])
p("C104", "Disabling choices of a nested model equals leaving them out",
  "If some nodes are infeasible (-inf), leaving them out of the tree changes neither the probability of any other choice nor the top-level output, and disabled nodes get probability 0 - provided no nest loses all its children (an empty nest becomes a choice and takes probability).",
  "every pair of well-formed node tables, one contained in the other",
  "All trees and all subsets of infeasible nodes.",
  ["cheval/core.py:nested_probabilities", "cheval/api.py:ChoiceNode"])
p("C105", "The logsum lies between the greatest utility and that of the model without nests",
  "With scaled utilities, the logarithm of the top-level output of a nested model is at least the utility of every elemental choice (taken together with those of the nests it is in); if no nest has a scale above 1 it is at most the logarithm of the sum of the exponentials of these utilities, hence at most the greatest of them plus the logarithm of the number of elemental choices. Models without nests have the same bounds.",
  "every well-formed tree, positive scales, utilities finite or -inf and check setting",
  "An inequality over real vectors and trees of any shape and depth.",
  ["cheval/core.py:nested_probabilities", "cheval/core.py:multinomial_probabilities"])
p("C106", "A run that raises leaves no trace in the model",
  "When a run or pre-evaluation raises, the model is as it was before: after the cause has been corrected (symbols assigned, expressions replaced) the next run returns exactly the utilities of its own expressions.",
  "every history of calls, every model, group and position of the failing expression",
  "A crash point can be at any expression of any run in any history.",
  ["cheval/model.py:ChoiceModel._evaluate_utilities", "cheval/model.py:ChoiceModel.run_stochastic", "cheval/model.py:ChoiceModel.run_discrete", "cheval/model.py:ChoiceModel.preval"])
p("C107", "A model recovers from NaN utilities when their cause is removed",
  "After a run has reported utilities that are NaN, replacing the data or the expressions that caused it lets later runs succeed.",
  "every history of calls after the report",
  "Whatever the calls made afterwards, of any number and on any models.",
  ["cheval/model.py:ChoiceModel._evaluate_utilities", "cheval/model.py:ChoiceModel.add_choice", "cheval/model.py:ChoiceModel.add_choices"])
p("C108", "A decision unit's outputs depend only on its own data",
  "Take two models, in the same or in different sessions, with the same expression texts and the same choices. If a unit of one and a unit of the other have the same data (the same values of all symbols that the texts use, for every choice), they get the same utilities, probabilities and logsums, whatever the other units, their number, order and data. If moreover they have the same position and the discrete runs the same seed and number of draws, they are given the same simulated choices.",
  "all pairs of histories of calls, models, units, generators, seeds, numbers of draws and thread schedules",
  "It ranges over all pairs of models and all data of the other units; a test compares a few.",
  ["cheval/model.py:ChoiceModel._evaluate_utilities", "cheval/model.py:ChoiceModel.run_stochastic", "cheval/model.py:ChoiceModel.run_discrete", "cheval/core.py:worker_multinomial_sample", "cheval/core.py:worker_nested_sample"])
p("C109", "A unit's simulated choice does not depend on which other units are in the model",
  "With the same seed, a unit with the same data is given the same choice in a discrete run of a model and of a subset of it (copy_subset).",
  "all models, subsets, generators and seeds",
  "The random number of a unit is taken by position, so it depends on the units before it.",
  ["cheval/model.py:ChoiceModel.run_discrete", "cheval/model.py:ChoiceModel.copy_subset", "cheval/core.py:generate_rand_floats_for_parallel"])
p("C110", "The order of unrelated set-up calls does not matter",
  "Exchanging neighbouring set-up calls that do not concern each other (texts of expressions, choices, decision units, declarations and data of different symbols; or calls on different models), any number of times, changes nothing in the results of any later run: utilities, probabilities, choices, errors.",
  "all pairs of sequences of calls that are reorderings of each other, and all later runs",
  "It ranges over all permutations of all histories.",
  ["cheval/model.py:ChoiceModel", "cheval/api.py:AbstractSymbol"])
p("C111", "The last assignment to a symbol counts",
  "After any assignments to a symbol, an accepted assignment gives the model the same data, and so the same runs, as if it had been the only one.",
  "all sequences of assignments to a symbol, accepted or not, in all models",
  "It ranges over all histories of assignments.",
  ["cheval/api.py:AbstractSymbol.assign"])
p("C112", "Every aggregation of linked frames can be used in utility expressions",
  "An expression table.path.f(e) is accepted for every aggregation f that linked data frames support, unless it has keyword arguments or none at all, or the table is in use as a plain symbol.",
  "all texts, tables, paths, arguments and earlier expressions",
  "It ranges over all expressions.",
  ["cheval/parsing/ast_transformer.py:ExpressionParser.__visit_method", "cheval/ldf/api.py:LinkedDataFrame"])
p("C113", "The order in which expressions are added does not matter",
  "Two models with the same choices that run the same expression texts, added in different orders, give the same utilities to decision units with the same data.",
  "all pairs of histories and models whose runs are of permuted texts, and all units with the same data",
  "It ranges over all permutations of all sets of expressions.",
  ["cheval/model.py:ChoiceModel._evaluate_utilities", "cheval/api.py:ExpressionGroup.append"])
p("C114", "Data given as Series reaches expressions as it was given",
  "Texts (object or categorical) and integers that are accepted reach expressions as the same texts and integers, none cut or changed because of other values in the column, and a missing value equals no value.",
  "all columns: any number of rows, lengths of texts, categories and positions of missing values",
  "It depends on all values of a column together (the longest text, one missing value).",
  ["cheval/utils.py:convert_series", "cheval/api.py:VectorSymbol.assign", "cheval/api.py:TableSymbol"])
p("C115", "Number symbols hold numbers, booleans and texts",
  "declare_number declares a scalar of number, boolean or text type (model.py 251): each of these can be assigned and is used with the same value.",
  "all numbers, booleans and texts",
  "It ranges over all values.",
  ["cheval/api.py:NumberSymbol.assign", "cheval/model.py:ChoiceModel.declare_number"])
p("C116", "Constants in the utilities of a model without nests",
  "Adding an expression whose value is the constant k for every choice leaves every probability of run_stochastic as it was and multiplies the second output by e^k; adding `k @ choice` multiplies the odds of that choice against any other by e^k, and for k > 0 its probability does not fall (it rises if it was strictly between 0 and 1) and no other probability rises. (Exact arithmetic.)",
  "every orderly history without nests, expression texts, data, unit and constant",
  "Relates two runs over all models and reals; tests compare single numbers.",
  ["cheval/model.py:ChoiceModel.run_stochastic", "cheval/api.py:ExpressionGroup", "cheval/core.py:multinomial_probabilities"])
p("C117", "Assigned data are a snapshot",
  "After data are assigned to a symbol, runs use them as they were then, whatever is done later to the Series, array or frame of the user, to copies of the model or to subsets.",
  "all histories of assignments, in-place writes, copies and subsets",
  "It ranges over all later histories and depends on which conversions share memory.",
  ["cheval/api.py:VectorSymbol.assign", "cheval/api.py:VectorSymbol.copy", "cheval/api.py:TableSymbol.assign", "cheval/api.py:TableSymbol.copy", "cheval/api.py:TableSymbol.copy_subset", "cheval/utils.py:convert_series", "cheval/model.py:ChoiceModel.copy_subset"])
p("C118", "More utility for one choice of a nested model",
  "In a model with nests, adding an expression that adds a positive value to one elemental choice only (`k @ nest.choice`) never lowers the probability that run_stochastic returns for it (and raises it if it was strictly between 0 and 1), and, unless a nest is inside a nest of a smaller scale and utilities are scaled, raises no other probability. (Exact arithmetic.)",
  "every orderly history with nests of any depth and scales, expression texts, data, unit and positive value",
  "Relates two runs over all models, trees and reals.",
  ["cheval/model.py:ChoiceModel.run_stochastic", "cheval/core.py:nested_probabilities", "cheval/api.py:ExpressionGroup", "cheval/model.py:ChoiceModel._flatten"])
p("C119", "Nests of scale 1 make no difference",
  "If every nest of a model has scale 1 and the expressions add 0 to the utilities of the nests, run_stochastic returns, for every decision unit, the multinomial logit probabilities of the elemental choices alone, with their total as second output: the numbers returned by a run of a model without nests whose choices have the same utilities. (Exact arithmetic.)",
  "every pair of orderly histories, one with nests of any depth and one without, expression texts, data, unit, and setting of scale_utilities and precision checks",
  "Relates two runs over all models, trees and reals.",
  ["cheval/model.py:ChoiceModel.run_stochastic", "cheval/core.py:nested_probabilities", "cheval/core.py:multinomial_probabilities", "cheval/model.py:ChoiceModel._flatten"])
p("C120", "Whole runs without nests satisfy independence of irrelevant alternatives",
  "If two models without nests share two choices, and their expressions give each of the two the same utility in both models, then run_stochastic returns the same odds of one against the other in both, whatever other choices, data, units and expressions there are. If the second model only has one choice more, with probability z, every other probability is 1 - z times what it was and the second output grows by e^u of the new choice; a choice whose utility is -inf changes nothing. (Exact arithmetic.)",
  "every pair of orderly histories, choices, expression texts, data and units",
  "Relates two runs over all models and reals.",
  ["cheval/model.py:ChoiceModel.run_stochastic", "cheval/core.py:multinomial_probabilities", "cheval/api.py:ExpressionGroup"])
p("C121", "A constant in every utility of a model with nests",
  "If all elemental choices of a model with nests are on its last level and utilities are scaled, adding an unfiltered constant expression k (which applies to the nests' columns too) changes no probability returned by run_stochastic and multiplies its second output by e^(k * number of levels), so that its logarithm grows by k for each level. If elemental choices are on different levels this is false: the constant moves probability towards the deeper choices. (Exact arithmetic.)",
  "every pair of orderly histories of models with nests, depths, logsum scales, expression texts, data and units",
  "Relates two runs over all trees and reals.",
  ["cheval/model.py:ChoiceModel.run_stochastic", "cheval/core.py:nested_probabilities", "cheval/model.py:ChoiceModel._flatten"])
p("C122", "Disabled choices and the order of choices in runs of nested models",
  "Take two models with nests and the same depth whose shared choices have the same names, nests, scales and utilities. If the elemental choices that only the second has all have the utility -inf (and no nest of the first is an elemental choice of the second or conversely), run_stochastic returns for the second every label and probability it returns for the first, probability 0 for the other choices, and the same second output: disabling choices is the same as leaving them out. If neither has further choices, the labels and probabilities are the same, in whatever order the choices were added. (Exact arithmetic.)",
  "every pair of orderly histories of models with nests, trees, expression texts, data and units",
  "Relates two runs over all trees, orders of construction and reals.",
  ["cheval/model.py:ChoiceModel.run_stochastic", "cheval/core.py:nested_probabilities", "cheval/model.py:ChoiceModel._flatten", "cheval/api.py:ChoiceNode.add_choice"])
#MORE
if __name__ == "__main__":
    out = os.path.join(os.path.dirname(os.path.abspath(__file__)), "..", "properties.jsonl")
    ids = [x["id"] for x in P]
    assert len(ids) == len(set(ids))
    with open(out, "w") as f:
        for x in P:
            f.write(json.dumps(x) + "\n")
    print(len(P), "properties")
