{"id": "C01", "title": "A single draw implements inverse-CDF sampling exactly", "statement": "Given probabilities p and a draw r, the single-draw sampler returns index i exactly when r (raised to the smallest positive normal double) lies in the half-open cell (p0+..+p(i-1), p0+..+pi]; every draw in (0, sum p] hits exactly one cell, whose width is exactly p_i. If r exceeds the total it returns the last index.", "quantifier": "every finite list of non-negative probabilities and every draw r", "why_tests_cant": "The probability that a choice is picked equals the width of a real interval; a test can only try some draws of some arrays.", "anchors": ["cheval/core.py:sample_once"]}
{"id": "C02", "title": "A zero-probability alternative is never sampled (exact arithmetic)", "statement": "When the probabilities are non-negative and sum to at least the draw, the sampled alternative has strictly positive probability.", "quantifier": "every probability list, every draw in (0, total]", "why_tests_cant": "A violation needs a particular coincidence of draw and cumulative sums, including leading/trailing zeros.", "anchors": ["cheval/core.py:sample_once", "cheval/core.py:logarithmic_search"]}
{"id": "C03", "title": "In IEEE doubles an infeasible last alternative is never sampled", "statement": "With double arithmetic, an alternative whose probability is exactly 0 is never returned by the single-draw or multi-draw sampler for any draw the generator can produce (below 1).", "quantifier": "every list of doubles produced by normalising non-negative weights, every double draw in (0,1)", "why_tests_cant": "Failure needs rounding to leave the cumulative sum below a draw next to 1; probability ~1e-16 per draw.", "anchors": ["cheval/core.py:sample_once", "cheval/core.py:logarithmic_search", "cheval/core.py:simple_sample"]}
{"id": "C04", "title": "Binary search terminates and finds the first cell", "statement": "For every non-empty array of non-decreasing cumulative probabilities and every draw, the binary search terminates and returns the smallest index whose cumulative value is >= the draw, or the last index when there is none; the index is always in range, even for unsorted or NaN input.", "quantifier": "every non-empty array (any length), every draw, every comparison order including IEEE doubles with NaN", "why_tests_cant": "Loop-bound and off-by-one errors depend on the array length and on runs of equal values.", "anchors": ["cheval/core.py:logarithmic_search"]}
{"id": "C05", "title": "Multi-draw and single-draw samplers agree draw by draw", "statement": "For the same probabilities and the same stream of draws, the multi-draw sampler returns at every position what the single-draw sampler would return for that draw, in IEEE double arithmetic.", "quantifier": "every list of non-negative finite doubles, every number of draws, every draw stream of doubles >= the smallest positive normal double", "why_tests_cant": "Agreement needs cumulative sums of rounded doubles to be monotone, a fact about all doubles.", "anchors": ["cheval/core.py:sample_multi", "cheval/core.py:nbf_cumsum", "cheval/core.py:logarithmic_search", "cheval/core.py:sample_once"]}
{"id": "C06", "title": "Multinomial probabilities follow the logit formula and sum to one", "statement": "For utilities that are finite or -inf with at least one finite, the returned probability of alternative i is exp(u_i)/sum_j exp(u_j) (0 for -inf), each lies in [0,1], they sum to 1, the logsum output is sum_j exp(u_j) and the per-alternative term is exp(u_i).", "quantifier": "every utility vector over the reals extended with -inf, of any length", "why_tests_cant": "Statement over a continuum of real vectors of any length.", "anchors": ["cheval/core.py:multinomial_probabilities", "cheval/model.py:ChoiceModel.run_stochastic"]}
{"id": "C07", "title": "Multinomial infeasibility is reported exactly when nothing is feasible", "statement": "With the check on, the error is raised iff every utility is -inf (or there is no alternative); with the check off the same input returns all-zero probabilities and logsum 0, and no other input is affected by the flag.", "quantifier": "every utility vector over reals and -inf, both flag values", "why_tests_cant": "An iff over all vectors.", "anchors": ["cheval/core.py:multinomial_probabilities"]}
{"id": "C08", "title": "Multinomial probabilities are invariant under a common utility shift", "statement": "Adding the same finite constant to every utility leaves every probability unchanged and multiplies the logsum output by exp(c).", "quantifier": "every utility vector, every real constant", "why_tests_cant": "Universally quantified over reals.", "anchors": ["cheval/core.py:multinomial_probabilities"]}
{"id": "C09", "title": "Independence of irrelevant alternatives", "statement": "The ratio of the probabilities of two feasible alternatives is exp(u_i-u_j) whatever the other utilities are; disabling an alternative with -inf gives the others the probabilities of the model without it.", "quantifier": "every utility vector and pair of alternatives", "why_tests_cant": "Universally quantified over reals and positions.", "anchors": ["cheval/core.py:multinomial_probabilities"]}
{"id": "C10", "title": "Raising one utility never lowers its probability nor raises another's", "statement": "If only u_k is increased, p_k increases strictly (when another alternative is feasible) and every other probability does not increase.", "quantifier": "every utility vector, position and increase", "why_tests_cant": "Monotonicity over a continuum.", "anchors": ["cheval/core.py:multinomial_probabilities"]}
{"id": "C11", "title": "Multinomial results do not depend on the order of alternatives", "statement": "Permuting the alternatives permutes the probabilities and logsum terms accordingly and leaves the logsum unchanged.", "quantifier": "every utility vector and permutation", "why_tests_cant": "All permutations of all lengths.", "anchors": ["cheval/core.py:multinomial_probabilities"]}
{"id": "C12", "title": "No NaN probability for NaN-free utilities", "statement": "If no utility is NaN, no returned probability is NaN.", "quantifier": "every NaN-free utility vector including +inf", "why_tests_cant": "Tests rarely include infinities or overflowing utilities.", "anchors": ["cheval/core.py:multinomial_probabilities", "cheval/model.py:ChoiceModel._evaluate_utilities"]}
{"id": "C13", "title": "Nested evaluation satisfies the nested-logit equations in the arithmetic used", "statement": "For every well-formed node table the third output E satisfies: E=exp(u/s) for a childless node and exp((u+scale*log(sum of E over its children))/s) for a nest, s being the parent's logsum scale (1 at the top or when scaling is off); the second output is the sum of E over top nodes; each childless node's probability is the product along its path of E/(sum of E over its sibling group) (0 for an empty group) and every nest's probability is 0. Sums run in node order.", "quantifier": "every tree shape, depth and node order, every utility vector, any arithmetic (IEEE doubles included)", "why_tests_cant": "Correctness of a level-by-level in-place array algorithm for all trees.", "anchors": ["cheval/core.py:nested_probabilities"]}
{"id": "C14", "title": "Nested probabilities of the elemental choices sum to one", "statement": "For utilities finite or -inf with positive top logsum, probabilities are in [0,1], those of childless nodes sum to 1, and every nest gets 0.", "quantifier": "every well-formed tree and every utility vector over reals and -inf", "why_tests_cant": "Sum-to-one over all trees of any depth.", "anchors": ["cheval/core.py:nested_probabilities", "cheval/model.py:ChoiceModel.run_stochastic"]}
{"id": "C15", "title": "An infeasible nest is switched off and the rest still sums to one", "statement": "If all children of a nest are infeasible (E=0) then the nest and all its descendants get probability 0, while the total over childless nodes remains 1 as long as some top node is feasible; the error is raised iff every top node is infeasible and the check is on; with the check off everything is 0.", "quantifier": "every well-formed tree and utility vector", "why_tests_cant": "log(0) paths in every nest position.", "anchors": ["cheval/core.py:nested_probabilities"]}
{"id": "C16", "title": "Nested logit with unit scales and zero nest utilities collapses to multinomial logit", "statement": "If every logsum scale is 1 and every nest has utility 0, every childless node gets the multinomial probability computed over the childless nodes alone, and the top logsum equals the multinomial logsum.", "quantifier": "every well-formed tree, every utility vector of its leaves", "why_tests_cant": "Relates two algorithms on all trees.", "anchors": ["cheval/core.py:nested_probabilities", "cheval/core.py:multinomial_probabilities"]}
{"id": "C17", "title": "Nested probabilities are invariant under a shift of all top-level utilities", "statement": "Adding one constant to the utility of every top-level node (children unchanged) leaves all probabilities unchanged.", "quantifier": "every well-formed tree, utility vector and real constant", "why_tests_cant": "Universal over reals and trees.", "anchors": ["cheval/core.py:nested_probabilities"]}
{"id": "C18", "title": "A one-level nested evaluation equals the multinomial evaluation", "statement": "When no node has a parent, nested evaluation returns exactly the multinomial probabilities, logsum and terms, in any arithmetic.", "quantifier": "every utility vector, any arithmetic", "why_tests_cant": "Equality of two programs on all inputs.", "anchors": ["cheval/core.py:nested_probabilities", "cheval/core.py:multinomial_probabilities"]}
{"id": "C19", "title": "Row-parallel workers give the sequential result under every schedule", "statement": "For every order in which threads execute and interleave the row tasks, the probability/logsum/term tables equal the row-by-row application of the single-row function.", "quantifier": "every number of rows, every interleaving of the per-row writes", "why_tests_cant": "Schedules cannot be enumerated by tests.", "anchors": ["cheval/core.py:worker_multinomial_probabilities", "cheval/core.py:worker_nested_probabilities", "cheval/core.py:worker_multinomial_sample", "cheval/core.py:worker_nested_sample"]}
{"id": "C20", "title": "Discrete results depend on the seed only, not on threads", "statement": "With a fixed integer seed, the discrete workers return the same choices for every number of threads, every assignment of rows to threads and every prior generator state of those threads, both for one and for several draws.", "quantifier": "every seed, row count, draw count, thread assignment and initial thread-local generator states", "why_tests_cant": "Thread-local random state and scheduling.", "anchors": ["cheval/core.py:worker_multinomial_sample", "cheval/core.py:worker_nested_sample", "cheval/core.py:generate_rand_ints_for_parallel", "cheval/core.py:generate_rand_floats_for_parallel", "cheval/model.py:ChoiceModel.run_discrete"]}
{"id": "C21", "title": "Weighted sampling worker is reproducible and supports several draws", "statement": "The weighted-sample worker is reproducible from its seed whatever the threads, and for n>1 returns n draws per row.", "quantifier": "every weights table, n and seed", "why_tests_cant": "Thread-local random state; failure only for some n.", "anchors": ["cheval/core.py:worker_weighted_sample", "cheval/core.py:simple_multisample"]}
{"id": "C22", "title": "Indexed parallel addition equals the sequential addition under every interleaving", "statement": "When the row and column indexers contain no repeated position, every interleaving of the reads and writes of the parallel loop ends with out[ri[i],ci[j]] increased by addition[i,j] and every other cell unchanged; bad shapes or out-of-range indexers are rejected before any write.", "quantifier": "every matrix size, indexer and interleaving", "why_tests_cant": "Data races depend on the schedule.", "anchors": ["cheval/core.py:fast_indexed_add"]}
{"id": "C23", "title": "Indexed parallel addition with repeated labels accumulates all contributions", "statement": "When the partial table repeats a row label, all its rows are added to that decision unit.", "quantifier": "every partial table whose index repeats a label, every interleaving", "why_tests_cant": "Lost updates are schedule dependent.", "anchors": ["cheval/core.py:fast_indexed_add", "cheval/model.py:ChoiceModel.add_partial_utilities"]}
{"id": "C24", "title": "The choice tree stays consistent through every build history", "statement": "After any sequence of add_choice/add_choices/node.add_choice calls that never re-uses an existing full name, every node is stored under its dotted full name, its parent is in the model, its level is its parent's level + 1, it is a nest exactly when some stored node names it as parent, and its logsum scale is in (0,1].", "quantifier": "every finite history of tree-building calls", "why_tests_cant": "Invariant over unbounded histories.", "anchors": ["cheval/model.py:ChoiceModel._create_node", "cheval/model.py:ChoiceModel.add_choice", "cheval/api.py:ChoiceNode"]}
{"id": "C25", "title": "Choice labels are unique and in insertion order", "statement": "Distinct nodes get distinct labels (names for flat models, '.'-padded tuples for nested ones); the label of a node spells its path; labels are listed in insertion order.", "quantifier": "every tree built by any history", "why_tests_cant": "Uniqueness over all names and shapes.", "anchors": ["cheval/model.py:ChoiceModel.choices", "cheval/api.py:ChoiceNode.nested_id", "cheval/api.py:ChoiceNode.full_name"]}
{"id": "C26", "title": "The flattened arrays faithfully encode the tree", "statement": "For every consistent tree of depth > 1, hierarchy gives each node's parent position (-1 at top), levels the depth from 0, logsum scales the node's scale for nests and 1 for others, bottom flags mark exactly the childless nodes; these arrays meet the precondition of the nested evaluation.", "quantifier": "every consistent tree", "why_tests_cant": "All shapes and insertion orders.", "anchors": ["cheval/model.py:ChoiceModel._flatten"]}
{"id": "C27", "title": "Stochastic results list exactly the elemental choices and sum to one", "statement": "For a validated model without +inf/NaN utilities and a feasible top choice, the returned table has one column per elemental choice, in insertion order, labelled by it, and each row sums to 1.", "quantifier": "every model and every utility table", "why_tests_cant": "Composition of tree, flattening, evaluation and column filtering.", "anchors": ["cheval/model.py:ChoiceModel.run_stochastic", "cheval/model.py:ChoiceModel._build_nested_stochastic_frame", "cheval/model.py:ChoiceModel.elemental_choices"]}
{"id": "C28", "title": "Re-adding a choice replaces it and everything under it", "statement": "After add_choice(name) for an existing top-level nest, the old nest's children are gone and the new choice behaves like a fresh childless choice.", "quantifier": "every tree and existing nest name", "why_tests_cant": "Needs a particular history.", "anchors": ["cheval/model.py:ChoiceModel._create_node"]}
{"id": "C29", "title": "A rejected add_choice leaves the model unchanged", "statement": "If add_choice raises (bad name or scale), the set of choices is as before.", "quantifier": "every tree and invalid argument", "why_tests_cant": "Needs error paths in every state.", "anchors": ["cheval/model.py:ChoiceModel._create_node", "cheval/api.py:ChoiceNode.__init__"]}
{"id": "C30", "title": "Changing the tree invalidates cached partial utilities", "statement": "After any call that changes the set of choices, cached partial utilities are dropped, so the next evaluation starts from a table matching the new choices.", "quantifier": "every history with cached utilities followed by a tree change at any level", "why_tests_cant": "History dependent.", "anchors": ["cheval/model.py:ChoiceModel.add_choice", "cheval/api.py:ChoiceNode.add_choice"]}
{"id": "C31", "title": "Tree validation accepts exactly the well-formed trees", "statement": "validate() of the tree succeeds iff there are at least two top-level choices and no nest with exactly one child.", "quantifier": "every tree", "why_tests_cant": "iff over all trees.", "anchors": ["cheval/model.py:ChoiceModel.validate"]}
{"id": "C32", "title": "Expression rewriting preserves meaning", "statement": "For expressions whose and/or/not operands are boolean, the rewritten expression (&, |, ~, split comparisons, substituted attribute chains and dict literals) evaluates to the same value as the original under every assignment of the symbols.", "quantifier": "every supported expression and environment", "why_tests_cant": "Induction over all syntax trees.", "anchors": ["cheval/parsing/ast_transformer.py:ExpressionParser"]}
{"id": "C33", "title": "Every symbol an expression reads is registered", "statement": "After parsing, every free name of the rewritten expression is a registered simple symbol, a generated substitution, a reserved word or a function name; so validation and evaluation see it.", "quantifier": "every supported expression", "why_tests_cant": "Induction over all syntax trees.", "anchors": ["cheval/parsing/ast_transformer.py:ExpressionParser", "cheval/parsing/expressions.py:Expression.parse"]}
{"id": "C34", "title": "A symbol is never both simple and chained", "statement": "Across every history of accepted and rejected expressions in one container, no symbol is recorded both as simple and as chained, and every inconsistent use is rejected.", "quantifier": "every history of appended expressions, grouped or not", "why_tests_cant": "Invariant over histories.", "anchors": ["cheval/api.py:ExpressionGroup.append", "cheval/parsing/ast_transformer.py:ExpressionParser.visit_name", "cheval/parsing/ast_transformer.py:ExpressionParser.visit_attribute"]}
{"id": "C35", "title": "A rejected expression leaves the container unchanged", "statement": "If append raises, later validation and parsing behave as if it had not been called.", "quantifier": "every container state and rejected expression", "why_tests_cant": "Error paths in every state.", "anchors": ["cheval/api.py:ExpressionGroup.append"]}
{"id": "C36", "title": "Generated substitution names never clash", "statement": "Within one expression, distinct chained usages get distinct substitution names.", "quantifier": "every expression", "why_tests_cant": "Clash needs more than ten usages of one symbol and a digit-suffixed twin.", "anchors": ["cheval/parsing/expr_items.py:ChainedSymbol._make_sub"]}
{"id": "C37", "title": "The '@' filter is split off correctly", "statement": "e@f splits into the stripped parts; text without '@' has no filter and is kept verbatim; more than one '@' is rejected.", "quantifier": "every string", "why_tests_cant": "All strings.", "anchors": ["cheval/parsing/expressions.py:_split_filter"]}
{"id": "C38", "title": "Dict literals assign the stated value to the stated choices and 0 elsewhere", "statement": "For a flat model {k1: v1, ...} yields v for each key's choice (last one wins) and 0 for all other choices; unknown keys are errors. In a nested model a key A.B sets only that node, and A.B._ sets every node strictly below A.B.", "quantifier": "every literal and choice set", "why_tests_cant": "All key sets, trees and entry orders.", "anchors": ["cheval/parsing/expressions.py:Expression._insert_dict_val", "cheval/parsing/expressions.py:Expression._prepare_dict_literals"]}
{"id": "C39", "title": "Dict literal entries for different nodes do not interfere", "statement": "The order of the entries of a dict literal with distinct, non-overlapping meanings (node A and the children of A) does not change the result.", "quantifier": "every nested choice set and literal", "why_tests_cant": "Order dependence.", "anchors": ["cheval/parsing/expressions.py:Expression._insert_dict_val"]}
{"id": "C40", "title": "An expression filtered by '@ choice' changes only that column", "statement": "Evaluating a filtered expression adds, in the chosen column only, what the unfiltered expression would have added there; every other column is unchanged.", "quantifier": "every expression, table and choice", "why_tests_cant": "Universal over expressions and data.", "anchors": ["cheval/model.py:ChoiceModel._kernel_eval", "cheval/model.py:ChoiceModel._make_column_mask"]}
{"id": "C41", "title": "Expression containers: groups are independent and ordered", "statement": "Evaluation order is ungrouped expressions in order of appending, then groups in order of first use; get_group returns exactly the expressions appended to it; drop_group removes only that group; unknown groups raise KeyError; copying preserves the iteration.", "quantifier": "every history of container operations", "why_tests_cant": "Histories.", "anchors": ["cheval/api.py:ExpressionGroup"]}
{"id": "C42", "title": "Concatenating or copying containers does not alias them", "statement": "Appending to a copy or to a sum of containers never changes the operands.", "quantifier": "every container history", "why_tests_cant": "Aliasing shows only after later updates.", "anchors": ["cheval/api.py:ExpressionGroup.copy", "cheval/api.py:ExpressionGroup.__add__"]}
{"id": "C43", "title": "Reserved words can never be declared", "statement": "In every reachable state no scope symbol is named NAN, OUT or NEG_INF; attempts raise and change nothing.", "quantifier": "every history", "why_tests_cant": "Invariant over histories.", "anchors": ["cheval/model.py:ChoiceModel._check_symbol_name"]}
{"id": "C44", "title": "Changing decision units empties every dependent symbol", "statement": "After setting decision units every non-number symbol is unassigned (so validation fails until it is re-assigned) and number symbols keep their value.", "quantifier": "every scope", "why_tests_cant": "All scopes and histories.", "anchors": ["cheval/model.py:ChoiceModel.decision_units"]}
{"id": "C45", "title": "A validated model never fails on a missing or empty symbol", "statement": "If validate() succeeds, utility evaluation finds every registered symbol declared and assigned.", "quantifier": "every model state", "why_tests_cant": "Universal over states.", "anchors": ["cheval/model.py:ChoiceModel.validate", "cheval/model.py:ChoiceModel._evaluate_utilities"]}
{"id": "C46", "title": "Vectors and tables are only accepted when aligned", "statement": "assign() of a vector or table succeeds only if its index equals the decision units (or choices), and the stored data is then the row/column vector of the same values; otherwise it raises and the symbol is unchanged.", "quantifier": "every index and data", "why_tests_cant": "Universal over data.", "anchors": ["cheval/api.py:VectorSymbol.assign", "cheval/api.py:TableSymbol.assign"]}
{"id": "C47", "title": "Matrix assignment aligns by label and fills the rest", "statement": "When only the rows or only the columns need reindexing, cell (r,c) of the stored matrix is the data cell with those labels, or the fill value when absent; labels not in the model are rejected; mismatches are rejected when reindexing is off.", "quantifier": "every label set, data and orientation", "why_tests_cant": "Universal over label permutations/subsets.", "anchors": ["cheval/api.py:MatrixSymbol.assign"]}
{"id": "C48", "title": "Matrix assignment works when both rows and columns need reindexing", "statement": "With reindexing allowed on both axes, a matrix covering a subset of both is accepted and aligned.", "quantifier": "every label set", "why_tests_cant": "Depends on shape combinations.", "anchors": ["cheval/api.py:MatrixSymbol.assign"]}
{"id": "C49", "title": "allow_links=False rejects LinkedDataFrames and accepts plain frames", "statement": "A table symbol declared with allow_links=False accepts a plain aligned DataFrame and rejects a LinkedDataFrame.", "quantifier": "every aligned table", "why_tests_cant": "Decision logic over both kinds.", "anchors": ["cheval/api.py:TableSymbol.assign"]}
{"id": "C50", "title": "Utility tables are the sum of the expression contributions", "statement": "From a fresh model, each cell of the utility table is the sum, in evaluation order, of the values of the unfiltered expressions and of those filtered to that column.", "quantifier": "every history of calls that builds the choices before assigning data, every data and expression list whose symbols cannot collide with generated names (see C36)", "why_tests_cant": "Universal.", "anchors": ["cheval/model.py:ChoiceModel._evaluate_utilities", "cheval/model.py:ChoiceModel._kernel_eval"]}
{"id": "C51", "title": "NaN utilities never reach the probability stage", "statement": "If any cell of the utility table is NaN, the run raises instead of returning a result.", "quantifier": "every table", "why_tests_cant": "Universal.", "anchors": ["cheval/model.py:ChoiceModel._evaluate_utilities"]}
{"id": "C52", "title": "Running a model twice gives the same result", "statement": "Two consecutive runs with unchanged inputs return the same probabilities.", "quantifier": "every model", "why_tests_cant": "History dependent state.", "anchors": ["cheval/model.py:ChoiceModel._partial_utilities", "cheval/model.py:ChoiceModel._evaluate_utilities"]}
{"id": "C53", "title": "Changing decision units restarts utility evaluation", "statement": "After setting new decision units, a run depends only on data assigned since.", "quantifier": "every model history", "why_tests_cant": "History dependent state.", "anchors": ["cheval/model.py:ChoiceModel.decision_units", "cheval/model.py:ChoiceModel._partial_utilities"]}
{"id": "C54", "title": "Pre-evaluating a group does not change the final utilities", "statement": "preval(group) followed by a run gives, in exact arithmetic, the utilities of a single run over all expressions (none of which reads OUT).", "quantifier": "every model, group and data", "why_tests_cant": "Universal.", "anchors": ["cheval/model.py:ChoiceModel.preval"]}
{"id": "C55", "title": "preval cleans exactly the symbols no other expression needs", "statement": "With cleanup on, preval removes from scope exactly the symbols used by the group and by no other expression, so later runs of the other groups still validate.", "quantifier": "every expression container history", "why_tests_cant": "Set algebra over all usages.", "anchors": ["cheval/model.py:ChoiceModel.preval"]}
{"id": "C56", "title": "A copied model gives the same results and is isolated", "statement": "copy() of a model runs to the same utilities, and running or extending the copy's scope, expressions or utilities never changes the original.", "quantifier": "every model state and later operations", "why_tests_cant": "Aliasing.", "anchors": ["cheval/model.py:ChoiceModel.copy"]}
{"id": "C57", "title": "copy_subset commutes with evaluation", "statement": "Running copy_subset(mask) stochastically equals running the whole model and keeping the masked rows.", "quantifier": "every model, data and mask", "why_tests_cant": "Universal.", "anchors": ["cheval/model.py:ChoiceModel.copy_subset", "cheval/api.py:VectorSymbol.copy", "cheval/api.py:TableSymbol.copy", "cheval/api.py:MatrixSymbol.copy"]}
{"id": "C58", "title": "External partial utilities are added by label", "statement": "add_partial_utilities adds each cell to the decision unit and choice with its labels and changes nothing else; unknown labels or disallowed mismatches raise and change nothing.", "quantifier": "every table and label set without repeated labels", "why_tests_cant": "Universal.", "anchors": ["cheval/model.py:ChoiceModel.add_partial_utilities", "cheval/core.py:fast_indexed_add"]}
{"id": "C59", "title": "Discrete results translate sampled positions to the right labels", "statement": "Each returned value is the label (or position for astype='index') of the sampled choice for that decision unit and draw; shape follows n_draws and squeeze.", "quantifier": "every raw result table", "why_tests_cant": "Universal.", "anchors": ["cheval/model.py:ChoiceModel._convert_result"]}
{"id": "C60", "title": "Link lookups follow the keys", "statement": "Reading a column through a non-aggregating link returns, for each row, the value of the unique target row with that row's key, or the fill value when there is none; the target frame is not changed. Only a target without rows cannot be read from (IndexError) when there are rows to look up.", "quantifier": "every pair of frames and key columns", "why_tests_cant": "Universal over data.", "anchors": ["cheval/ldf/api.py:_LinkMeta._make_indexer", "cheval/ldf/api.py:LinkedDataFrame._BaseNode._resolve_history"]}
{"id": "C61", "title": "Chained lookups compose", "statement": "a.b.c.col returns for each row of a the value reached by following the keys through b and c, with the fill value when any step is missing (every target on the way having rows).", "quantifier": "every chain length and data", "why_tests_cant": "Induction over chains.", "anchors": ["cheval/ldf/api.py:LinkedDataFrame._LinkNode", "cheval/ldf/api.py:LinkedDataFrame._BaseNode._resolve_history"]}
{"id": "C62", "title": "Link cardinality is classified correctly", "statement": "link_to reports aggregation iff own keys are unique and target keys repeat; both repeating is rejected and leaves the links unchanged; the fast path for identical keys agrees with the general lookup.", "quantifier": "every pair of key columns", "why_tests_cant": "Universal.", "anchors": ["cheval/ldf/api.py:_LinkMeta._determine_aggregation", "cheval/ldf/api.py:_LinkMeta._make_indexer"]}
{"id": "C63", "title": "Aggregations are computed over exactly the matching rows", "statement": "For an aggregating link without null keys, the value for each row is the aggregate of the target rows with that key, in order, or the fill (int_fill for integer/boolean data, NaN for float) when there are none.", "quantifier": "every data and aggregation function", "why_tests_cant": "Universal.", "anchors": ["cheval/ldf/api.py:LinkedDataFrame._LeafAggregation._Aggregator.__call__"]}
{"id": "C64", "title": "Aggregations are right even when target keys contain nulls", "statement": "Target rows with a null key are ignored and do not disturb the other groups.", "quantifier": "every data with null keys", "why_tests_cant": "Needs null keys.", "anchors": ["cheval/ldf/api.py:_LinkMeta._make_indexer", "cheval/ldf/api.py:LinkedDataFrame._LeafAggregation._Aggregator.__call__"]}
{"id": "C65", "title": "Slicing commutes with link lookups", "statement": "ldf[slice][link][column] == ldf[link][column][slice] for every row selection (with repetition and reordering, repeatedly applied).", "quantifier": "every frame, link and sequence of row selections", "why_tests_cant": "Universal over histories of slices.", "anchors": ["cheval/ldf/api.py:_LinkMeta.copy", "cheval/ldf/api.py:LinkedDataFrame.__subset_links"]}
{"id": "C66", "title": "Row reordering operations keep links aligned", "statement": "Operations that only go through finalisation, such as sort_values, keep each row linked to its own target.", "quantifier": "every frame and permutation", "why_tests_cant": "Silent misalignment.", "anchors": ["cheval/ldf/api.py:LinkedDataFrame.__finalize__", "cheval/ldf/api.py:_LinkMeta.copy_meta"]}
{"id": "C67", "title": "Reindexing marks new rows as unlinked", "statement": "Rows introduced by reindex (absent from the original) read the fill value through every link.", "quantifier": "every frame and new index", "why_tests_cant": "Needs a missing label and a look through a link.", "anchors": ["cheval/ldf/api.py:LinkedDataFrame._reindex_with_indexers", "cheval/ldf/api.py:_LinkMeta.copy"]}
{"id": "C68", "title": "Refreshing indexers makes links current", "statement": "After compute_indexers(refresh=True), lookups follow the current keys of both frames.", "quantifier": "every history of key edits", "why_tests_cant": "Stale caches.", "anchors": ["cheval/ldf/api.py:LinkedDataFrame.compute_indexers", "cheval/ldf/api.py:_LinkMeta.indexer_and_missing"]}
{"id": "C69", "title": "Delayed indexing gives the same results as precomputation", "statement": "A link created with precompute=False returns the same lookups and aggregations as one created with precompute=True.", "quantifier": "every frame, link kind and data", "why_tests_cant": "Order of lazy initialisation.", "anchors": ["cheval/ldf/api.py:LinkedDataFrame.link_to", "cheval/ldf/api.py:_LinkMeta.indexer_and_missing", "cheval/ldf/api.py:LinkedDataFrame._LeafAggregation._Aggregator.__call__"]}
{"id": "C70", "title": "Fill values follow the documented precedence", "statement": "Through a link to a LinkedDataFrame a column fill wins over the instance default for its dtype, which wins over the built-in default; links to plain frames use the class default; reset restores the built-in defaults; changing one frame's fills affects no other frame.", "quantifier": "every history of fill settings", "why_tests_cant": "Histories.", "anchors": ["cheval/ldf/missing_data.py:SeriesFillManager", "cheval/ldf/api.py:LinkedDataFrame._get_fill"]}
{"id": "C71", "title": "Class-level fill defaults affect new LinkedDataFrames", "statement": "After set_fill_defaults on the class, LinkedDataFrames created later use these defaults when they are the target of a link.", "quantifier": "every setting", "why_tests_cant": "Documented behaviour across objects.", "anchors": ["cheval/ldf/api.py:LinkedDataFrame.__init__", "cheval/ldf/api.py:LinkedDataFrame.set_fill_defaults"]}
{"id": "C72", "title": "link_to resolves its arguments as documented", "statement": "on overrides on_self/on_other, levels overrides self_levels/other_levels, giving both kinds for one side is rejected, giving none uses the index; mismatching numbers of levels are rejected; a rejected call leaves the links unchanged.", "quantifier": "every combination of arguments", "why_tests_cant": "Decision table over all combinations.", "anchors": ["cheval/ldf/api.py:LinkedDataFrame.link_to", "cheval/ldf/api.py:_IndexMeta"]}
{"id": "C73", "title": "local_dict replaces frame operands in evaluate()", "statement": "In LinkedDataFrame.evaluate a name given in local_dict is used instead of the frame's column of that name.", "quantifier": "every frame and local_dict", "why_tests_cant": "Documented precedence.", "anchors": ["cheval/ldf/api.py:LinkedDataFrame.evaluate"]}
{"id": "C74", "title": "Aggregating through one link works inside utility expressions", "statement": "In a utility expression, table.link.func(expr) aggregates over the link as it does in LinkedDataFrame.evaluate.", "quantifier": "every table symbol with an aggregating link", "why_tests_cant": "Depends on the chain length.", "anchors": ["cheval/api.py:TableSymbol._get", "cheval/parsing/ast_transformer.py:ExpressionParser"]}
{"id": "C75", "title": "add_choices adds every given name", "statement": "add_choices(names, logsum_scales) with new, distinct, valid names adds all of them in order, with the given scales (1 when none are given), whatever kind of iterable names is.", "quantifier": "every model, every iterable of names", "why_tests_cant": "Depends on the kind of iterable and on every length.", "anchors": ["cheval/model.py:ChoiceModel.add_choices"]}
{"id": "C76", "title": "Changing the choices of a copy does not change the original", "statement": "copy() always copies the tree of choices: adding choices to a copy, nesting choices in it, or setting a logsum scale in it changes neither the choices nor the probabilities of the original.", "quantifier": "every history of tree operations on models and their copies", "why_tests_cant": "Aliasing of node objects between models.", "anchors": ["cheval/model.py:ChoiceModel.copy", "cheval/model.py:ChoiceModel.copy_subset", "cheval/api.py:ChoiceNode.add_choice"]}
{"id": "C77", "title": "Reading has no effect on what is read later", "statement": "Reads (subscripts through links, aggregations, evaluate) change neither the data of any frame nor the result of any later read, whatever was linked, sliced, edited or reindexed before.", "quantifier": "every history, every sequence of reads in between, every read", "why_tests_cant": "Stored indexers are filled by reads in every order; all orders must agree.", "anchors": ["cheval/ldf/api.py:_LinkMeta.indexer", "cheval/ldf/api.py:_LinkMeta.missing_indices", "cheval/ldf/api.py:LinkedDataFrame.evaluate"]}
{"id": "C78", "title": "Reading through a link is without lasting effect", "statement": "Whether a link was read before an edit of the key columns does not change what is read after the edit.", "quantifier": "every history of edits and reads", "why_tests_cant": "Universal over histories.", "anchors": ["cheval/ldf/api.py:_LinkMeta.indexer", "cheval/ldf/api.py:_LinkMeta.precompute"]}
{"id": "C79", "title": "link_to accepts every documented argument and raises the documented error", "statement": "An integer level number is accepted as an argument; a call that is rejected raises LinkageSpecificationError.", "quantifier": "every call of link_to", "why_tests_cant": "Depends on the form of every argument.", "anchors": ["cheval/ldf/api.py:LinkedDataFrame.link_to", "cheval/ldf/api.py:_IndexMeta"]}
{"id": "C80", "title": "Every supported aggregation works on every column type it allows", "statement": "count, first and last, which are allowed for non-numeric columns, return a result for columns of floats and texts.", "quantifier": "every link, column type and data", "why_tests_cant": "Needs every type; the failure does not depend on the data.", "anchors": ["cheval/ldf/api.py:LinkedDataFrame._LeafAggregation._Aggregator.__call__", "cheval/ldf/api.py:LinkedDataFrame._BaseNode._resolve_history"]}
{"id": "C81", "title": "count(condition) counts the rows for which the condition holds", "statement": "link.count('age > 18') is for each row the number of linked rows for which the condition holds (LinkedDataFrame.md 121).", "quantifier": "every link, condition and data", "why_tests_cant": "Universal.", "anchors": ["LinkedDataFrame.md", "cheval/ldf/api.py:LinkedDataFrame._LeafAggregation._Aggregator.__call__"]}
{"id": "C82", "title": "Whole runs: utilities are the sums of the expression texts", "statement": "After any orderly history of calls (tree, decision units, scope, expressions, in any order), the utility of every decision unit and choice used by a run is the sum, in order of addition, of the values of the expression texts as written (operators, comparisons, and/or/not, links, dict literals, '@' filters), with every symbol standing for the data assigned to it.", "quantifier": "every orderly history, expression text, data, cell and group", "why_tests_cant": "Quantifies over all histories, texts and data; tests fix one of each.", "anchors": ["cheval/model.py:ChoiceModel.run_discrete", "cheval/model.py:ChoiceModel.run_stochastic", "cheval/model.py:ChoiceModel._evaluate_utilities", "cheval/api.py:ExpressionSubGroup", "cheval/utils.py"]}
{"id": "C83", "title": "run_stochastic returns the logit solution of those utilities", "statement": "The three outputs of run_stochastic are, for every decision unit, the probabilities labelled with the choices without children, the top-level term and the terms of all choices, and together they solve the (nested) logit equations for the utilities of C82.", "quantifier": "every orderly history, tree, data, unit and group", "why_tests_cant": "Universal over histories and trees.", "anchors": ["cheval/model.py:ChoiceModel.run_stochastic", "cheval/core.py:worker_nested_probabilities", "cheval/core.py:worker_multinomial_probabilities"]}
{"id": "C84", "title": "run_discrete returns the choice selected by the random number of (seed, unit, draw)", "statement": "Under every schedule of the threads, the result of run_discrete is labelled with the decision units, and the entry for unit r and draw j shows the choice that the random number determined by the seed, r and j selects from the probabilities of C83; the call returns exactly when every unit has a feasible choice.", "quantifier": "every orderly history, seed, number of draws, schedule and generator", "why_tests_cant": "Schedules cannot be enumerated by tests; universal over histories and data.", "anchors": ["cheval/model.py:ChoiceModel.run_discrete", "cheval/core.py:worker_nested_sample", "cheval/core.py:worker_multinomial_sample"]}
{"id": "C85", "title": "The top-level logsum is the expected maximum utility", "statement": "The second output of run_discrete and run_stochastic ('top-level logsum term') is the logsum ln(sum exp(u)): adding a constant to every utility adds it to the output.", "quantifier": "all utilities with a feasible choice", "why_tests_cant": "Universal over real vectors.", "anchors": ["cheval/model.py:ChoiceModel.run_stochastic", "cheval/core.py:multinomial_probabilities"]}
{"id": "C86", "title": "Computed probabilities are in [0, 1], and NaN exactly when an exponential overflows", "statement": "Computed in IEEE doubles with any library exponential that never returns NaN for a number nor a negative value: for utilities without NaN, whenever the multinomial evaluator returns, every probability is a finite number in [0, 1], except the alternatives whose exponential is infinite, whose probability is NaN.", "quantifier": "every number of alternatives and every vector of doubles (finite or infinite), every such exponential", "why_tests_cant": "Universal over floating-point vectors, including rounding and overflow.", "anchors": ["cheval/core.py:multinomial_probabilities"]}
{"id": "C87", "title": "Computed probabilities sum to 1 up to a stated rounding error", "statement": "Computed in IEEE doubles, if the sum of the exponentials does not overflow, the probabilities of n alternatives differ in sum from 1 by at most 2n * 2^-53.", "quantifier": "every vector of n doubles without NaN, n <= 2^51, every exponential as in C86", "why_tests_cant": "An error bound for all inputs; tests sample a few.", "anchors": ["cheval/core.py:multinomial_probabilities"]}
{"id": "C88", "title": "Utilities over linked tables follow the keys of the data", "statement": "In a choice model whose table symbol x holds a LinkedDataFrame, an expression x.link1. ... .column gives each decision unit the value of the column in the row reached by following the keys of the data (the fill value where a key has no match), and x.link1. ... .linkn.f(e) the aggregate of e over exactly the rows whose keys match.", "quantifier": "every orderly history of frames and of models, every chain of links, every row and choice", "why_tests_cant": "Composition of lookups, rewriting, scoping and evaluation for all data; tests check single configurations.", "anchors": ["cheval/api.py:TableSymbol", "cheval/ldf/api.py:LinkedDataFrame", "cheval/model.py:ChoiceModel._evaluate_utilities"]}
{"id": "C89", "title": "A run adds its expressions to the utilities that are already there", "statement": "When partial utilities are cached, run_stochastic and run_discrete give every (decision unit, choice) the cached value plus the expressions that apply. In particular, after tables were given to add_partial_utilities, every utility is what the tables say about that unit and that choice (by label, in the order of the calls; nothing where a table does not mention them) plus the expressions.", "quantifier": "every orderly history, every sequence of tables with distinct labels, every schedule of the threads that add them, every group and text", "why_tests_cant": "Ranges over histories, label orders and thread schedules; tests add one table.", "anchors": ["cheval/model.py:ChoiceModel.add_partial_utilities", "cheval/model.py:ChoiceModel._evaluate_utilities", "cheval/core.py:fast_indexed_add"]}
{"id": "C90", "title": "debug_results shows one decision unit after each expression, and debugging changes nothing else", "statement": "With debug_id set to the label of a decision unit, debug_results has one row for each expression of the run, labelled by its text, over the choices: row j holds what the utilities of that unit were before the run plus the expressions 0..j that apply to each choice, and the last row holds its utilities in the run; the record is made even if the run raises UtilityBoundsError. All results, errors, tables and copies are the same as without debug_id.", "quantifier": "every history of calls on several models, every label among the decision units (not false for Python), every expression and choice", "why_tests_cant": "Ranges over histories and expressions; a test compares one run with and without debugging.", "anchors": ["cheval/model.py:ChoiceModel.debug_id", "cheval/model.py:ChoiceModel.debug_results", "cheval/model.py:ChoiceModel._evaluate_utilities"]}
{"id": "C91", "title": "Debugging works with the label of any decision unit and does not make runs fail", "statement": "Setting debug_id to the label of any decision unit makes the runs record it, and never makes a run raise, on the model or on its copies.", "quantifier": "every label, every history, every copy and subset", "why_tests_cant": "Needs the label 0, or a subset without the unit, in combination with debugging.", "anchors": ["cheval/model.py:ChoiceModel._evaluate_utilities", "cheval/model.py:ChoiceModel.copy_subset"]}
{"id": "C92", "title": "Computed probabilities of any model, nested ones included, are numbers in [0, 1] or NaN", "statement": "In IEEE doubles, every probability computed for a nested model (and hence every probability run_stochastic returns) is in [0, 1] or is NaN, and none in the row of a decision unit whose returned terms (exponentials) are finite is NaN, whatever the utilities, the scales and the logarithm.", "quantifier": "every tree, every utility, scale and rounding; every history of calls (trees built by adding choices), every group", "why_tests_cant": "Rounding, underflow and overflow over all trees and utilities; tests use tolerances on one tree.", "anchors": ["cheval/core.py:nested_probabilities", "cheval/model.py:ChoiceModel.run_stochastic"]}
{"id": "C93", "title": "Sampling from weights follows the proportions of the weights", "statement": "simple_probabilities gives each alternative its share of the total weight; simple_sample selects an alternative for an interval of random numbers whose length is that share, whatever the scale of the weights, and never one of weight 0; in doubles the shares are in [0, 1], sum to 1 within 2n half-units, and a zero weight is not selected except by numbers within 2n half-units of 1. worker_weighted_sample does this in each row with a number that was drawn, under every schedule.", "quantifier": "every array of nonnegative weights with a positive finite total, every random number, every schedule", "why_tests_cant": "Ranges over all weights and random numbers; tests check a histogram.", "anchors": ["cheval/core.py:simple_probabilities", "cheval/core.py:simple_sample", "cheval/core.py:worker_weighted_sample"]}
{"id": "C94", "title": "Weights that are all zero are reported", "statement": "Sampling from an array of weights without a positive one raises, as sampling from utilities that are all infeasible does (UtilityBoundsError).", "quantifier": "every length, every random number, every schedule", "why_tests_cant": "Needs a degenerate row; the tests have none.", "anchors": ["cheval/core.py:simple_probabilities", "cheval/core.py:simple_sample", "cheval/core.py:worker_weighted_sample"]}
{"id": "C95", "title": "Computed probabilities of nested models sum to one up to rounding", "statement": "In IEEE doubles the probabilities nested_probabilities computes for a tree of n nodes sum to 1 within 4n half-units in the last place, and so does every row run_stochastic returns, when the returned terms (exponentials) can be added without overflow.", "quantifier": "every tree of up to 2^51 nodes, every utility, positive scale and rounding; every history of calls (trees built by adding choices), every group", "why_tests_cant": "Rounding accumulates along every path of the tree, and nests may have no feasible choice; tests use tolerances on one tree.", "anchors": ["cheval/core.py:nested_probabilities", "cheval/model.py:ChoiceModel.run_stochastic"]}
{"id": "C96", "title": "Discrete runs select from the probabilities that stochastic runs return", "statement": "For one state of a model, run_discrete returns whenever run_stochastic does, with the same logsums, and the choice it reports for a decision unit and draw is the first choice in the row returned by run_stochastic whose running sum of probabilities reaches the random number of (seed, unit, draw), if their sum does; that choice has a positive probability. In doubles the sum reaches every number up to 1 - 5n half-units for a tree of n nodes, so an infeasible choice or a nest is never reported for those.", "quantifier": "every tree (nested or not), history, number of draws, seed, schedule, utility, scale and rounding", "why_tests_cant": "Links two APIs for all states and random numbers; tests compare histograms.", "anchors": ["cheval/model.py:ChoiceModel.run_discrete", "cheval/model.py:ChoiceModel.run_stochastic", "cheval/core.py:worker_multinomial_sample", "cheval/core.py:worker_nested_sample"]}
{"id": "C97", "title": "A link's name stands for what the last link_to gave it; link_summary lists the links", "statement": "After any history, get_link_target(name) on a linked frame returns the frame that the last successful link_to(..., name, ...) on it was given (or on the frame it was sliced, copied, grouped or reindexed from, at that moment) and raises KeyError when there is none; refused link_to calls change nothing. link_summary() has one row per name, in the order the names were first used, with the labels of both sides as documented for the arguments, what link_to returned about aggregation, the present shape of the target, and whether the target supports links. 'preindexed' is precompute right after link_to and True for all links after compute_indexers().", "quantifier": "every history of operations on linked frames, frame and name", "why_tests_cant": "Quantifies over histories of linking, slicing, copying, editing and reading.", "anchors": ["cheval/ldf/api.py:LinkedDataFrame.get_link_target", "cheval/ldf/api.py:LinkedDataFrame.link_summary", "cheval/ldf/api.py:LinkedDataFrame.link_to", "cheval/ldf/api.py:LinkedDataFrame.compute_indexers"]}
{"id": "C98", "title": "A pivot table is the one pandas makes from the named columns and lookups", "statement": "pivot_table(values, index, columns) on a linked frame equals pandas' pivot_table on a plain frame with the same index and one column per name given: the frame's column of that name, else the result of evaluate(name). Each argument may be a name, an array, or a list of names. Nothing in the frame changes. (False for lists: any list with a name in it raises TypeError.)", "quantifier": "every history, frame, argument and pandas", "why_tests_cant": "Quantifies over frames, links and expressions; the existing tests use one name per argument.", "anchors": ["cheval/ldf/api.py:LinkedDataFrame.pivot_table", "cheval/ldf/api.py:LinkedDataFrame._resolve_columns"]}
{"id": "C99", "title": "temporary_fill_defaults changes the fill values for the length of a block, and restores them", "statement": "Inside 'with x.temporary_fill_defaults(**kw)' reads use the given fill values, and afterwards the fill values are exactly what they were, also when a name is unknown or the block raises. (The restoring part holds; the block can never run: the manager's method has no yield and the frame's method is a bare generator.)", "quantifier": "every fill settings, keyword arguments and block", "why_tests_cant": "Restoration must hold for all settings, orders and failures.", "anchors": ["cheval/ldf/missing_data.py:SeriesFillManager.temporary_fill_defaults", "cheval/ldf/api.py:LinkedDataFrame.temporary_fill_defaults"]}
{"id": "C100", "title": "Adding one constant to every elemental choice's utility changes no nested probability", "statement": "With scaled utilities (scale_utilities on), adding a constant c to the utility of every elemental choice of a nested model leaves every probability unchanged and multiplies the top-level output by e^c. (Without scaling it does change probabilities.)", "quantifier": "every well-formed tree, positive scales, utilities finite or -inf, constant and check setting", "why_tests_cant": "The factor must travel through every depth and shape of tree; a test fixes one tree.", "anchors": ["cheval/core.py:nested_probabilities"]}
{"id": "C101", "title": "Nested models: raising one choice's utility never lowers its probability nor raises another's", "statement": "If only the utility of one elemental choice is raised, its own probability does not fall, and rises strictly if it was strictly between 0 and 1, for all positive scales; no other choice's probability rises if every nest's scale is at most that of the nest around it (1 at the top). (Without that condition on the scales another choice can gain.)", "quantifier": "every well-formed tree, positive scales, utilities finite or -inf, choice and raise", "why_tests_cant": "An inequality over all trees and reals.", "anchors": ["cheval/core.py:nested_probabilities"]}
{"id": "C102", "title": "The derivative of the logsum with respect to a choice's utility is its probability", "statement": "The derivative of the log of the top-level output with respect to the utility of an elemental choice equals the returned probability of that choice (Williams-Daly-Zachary), when utilities are scaled or the model is flat; without scaling it is the probability times the product of the scales of the nests above the choice.", "quantifier": "every well-formed tree, positive scales, utilities, elemental choice and point", "why_tests_cant": "A statement about a limit, at every point of every model.", "anchors": ["cheval/core.py:nested_probabilities", "cheval/core.py:multinomial_probabilities"]}
{"id": "C103", "title": "Nested results do not depend on the order in which choices are numbered", "statement": "Renumbering the nodes of a tree (keeping parents, utilities and the scales of nests) permutes the probabilities accordingly and leaves the top-level output unchanged; the scales of elemental choices play no part.", "quantifier": "every pair of well-formed node tables related by a renumbering", "why_tests_cant": "All trees and all permutations.", "anchors": ["cheval/core.py:nested_probabilities"]}
{"id": "C104", "title": "Disabling choices of a nested model equals leaving them out", "statement": "If some nodes are infeasible (-inf), leaving them out of the tree changes neither the probability of any other choice nor the top-level output, and disabled nodes get probability 0 - provided no nest loses all its children (an empty nest becomes a choice and takes probability).", "quantifier": "every pair of well-formed node tables, one contained in the other", "why_tests_cant": "All trees and all subsets of infeasible nodes.", "anchors": ["cheval/core.py:nested_probabilities", "cheval/api.py:ChoiceNode"]}
{"id": "C105", "title": "The logsum lies between the greatest utility and that of the model without nests", "statement": "With scaled utilities, the logarithm of the top-level output of a nested model is at least the utility of every elemental choice (taken together with those of the nests it is in); if no nest has a scale above 1 it is at most the logarithm of the sum of the exponentials of these utilities, hence at most the greatest of them plus the logarithm of the number of elemental choices. Models without nests have the same bounds.", "quantifier": "every well-formed tree, positive scales, utilities finite or -inf and check setting", "why_tests_cant": "An inequality over real vectors and trees of any shape and depth.", "anchors": ["cheval/core.py:nested_probabilities", "cheval/core.py:multinomial_probabilities"]}
{"id": "C106", "title": "A run that raises leaves no trace in the model", "statement": "When a run or pre-evaluation raises, the model is as it was before: after the cause has been corrected (symbols assigned, expressions replaced) the next run returns exactly the utilities of its own expressions.", "quantifier": "every history of calls, every model, group and position of the failing expression", "why_tests_cant": "A crash point can be at any expression of any run in any history.", "anchors": ["cheval/model.py:ChoiceModel._evaluate_utilities", "cheval/model.py:ChoiceModel.run_stochastic", "cheval/model.py:ChoiceModel.run_discrete", "cheval/model.py:ChoiceModel.preval"]}
{"id": "C107", "title": "A model recovers from NaN utilities when their cause is removed", "statement": "After a run has reported utilities that are NaN, replacing the data or the expressions that caused it lets later runs succeed.", "quantifier": "every history of calls after the report", "why_tests_cant": "Whatever the calls made afterwards, of any number and on any models.", "anchors": ["cheval/model.py:ChoiceModel._evaluate_utilities", "cheval/model.py:ChoiceModel.add_choice", "cheval/model.py:ChoiceModel.add_choices"]}
{"id": "C108", "title": "A decision unit's outputs depend only on its own data", "statement": "Take two models, in the same or in different sessions, with the same expression texts and the same choices. If a unit of one and a unit of the other have the same data (the same values of all symbols that the texts use, for every choice), they get the same utilities, probabilities and logsums, whatever the other units, their number, order and data. If moreover they have the same position and the discrete runs the same seed and number of draws, they are given the same simulated choices.", "quantifier": "all pairs of histories of calls, models, units, generators, seeds, numbers of draws and thread schedules", "why_tests_cant": "It ranges over all pairs of models and all data of the other units; a test compares a few.", "anchors": ["cheval/model.py:ChoiceModel._evaluate_utilities", "cheval/model.py:ChoiceModel.run_stochastic", "cheval/model.py:ChoiceModel.run_discrete", "cheval/core.py:worker_multinomial_sample", "cheval/core.py:worker_nested_sample"]}
{"id": "C109", "title": "A unit's simulated choice does not depend on which other units are in the model", "statement": "With the same seed, a unit with the same data is given the same choice in a discrete run of a model and of a subset of it (copy_subset).", "quantifier": "all models, subsets, generators and seeds", "why_tests_cant": "The random number of a unit is taken by position, so it depends on the units before it.", "anchors": ["cheval/model.py:ChoiceModel.run_discrete", "cheval/model.py:ChoiceModel.copy_subset", "cheval/core.py:generate_rand_floats_for_parallel"]}
{"id": "C110", "title": "The order of unrelated set-up calls does not matter", "statement": "Exchanging neighbouring set-up calls that do not concern each other (texts of expressions, choices, decision units, declarations and data of different symbols; or calls on different models), any number of times, changes nothing in the results of any later run: utilities, probabilities, choices, errors.", "quantifier": "all pairs of sequences of calls that are reorderings of each other, and all later runs", "why_tests_cant": "It ranges over all permutations of all histories.", "anchors": ["cheval/model.py:ChoiceModel", "cheval/api.py:AbstractSymbol"]}
{"id": "C111", "title": "The last assignment to a symbol counts", "statement": "After any assignments to a symbol, an accepted assignment gives the model the same data, and so the same runs, as if it had been the only one.", "quantifier": "all sequences of assignments to a symbol, accepted or not, in all models", "why_tests_cant": "It ranges over all histories of assignments.", "anchors": ["cheval/api.py:AbstractSymbol.assign"]}
{"id": "C112", "title": "Every aggregation of linked frames can be used in utility expressions", "statement": "An expression table.path.f(e) is accepted for every aggregation f that linked data frames support, unless it has keyword arguments or none at all, or the table is in use as a plain symbol.", "quantifier": "all texts, tables, paths, arguments and earlier expressions", "why_tests_cant": "It ranges over all expressions.", "anchors": ["cheval/parsing/ast_transformer.py:ExpressionParser.__visit_method", "cheval/ldf/api.py:LinkedDataFrame"]}
{"id": "C113", "title": "The order in which expressions are added does not matter", "statement": "Two models with the same choices that run the same expression texts, added in different orders, give the same utilities to decision units with the same data.", "quantifier": "all pairs of histories and models whose runs are of permuted texts, and all units with the same data", "why_tests_cant": "It ranges over all permutations of all sets of expressions.", "anchors": ["cheval/model.py:ChoiceModel._evaluate_utilities", "cheval/api.py:ExpressionGroup.append"]}
{"id": "C114", "title": "Data given as Series reaches expressions as it was given", "statement": "Texts (object or categorical) and integers that are accepted reach expressions as the same texts and integers, none cut or changed because of other values in the column, and a missing value equals no value.", "quantifier": "all columns: any number of rows, lengths of texts, categories and positions of missing values", "why_tests_cant": "It depends on all values of a column together (the longest text, one missing value).", "anchors": ["cheval/utils.py:convert_series", "cheval/api.py:VectorSymbol.assign", "cheval/api.py:TableSymbol"]}
{"id": "C115", "title": "Number symbols hold numbers, booleans and texts", "statement": "declare_number declares a scalar of number, boolean or text type (model.py 251): each of these can be assigned and is used with the same value.", "quantifier": "all numbers, booleans and texts", "why_tests_cant": "It ranges over all values.", "anchors": ["cheval/api.py:NumberSymbol.assign", "cheval/model.py:ChoiceModel.declare_number"]}
{"id": "C116", "title": "Constants in the utilities of a model without nests", "statement": "Adding an expression whose value is the constant k for every choice leaves every probability of run_stochastic as it was and multiplies the second output by e^k; adding `k @ choice` multiplies the odds of that choice against any other by e^k, and for k > 0 its probability does not fall (it rises if it was strictly between 0 and 1) and no other probability rises. (Exact arithmetic.)", "quantifier": "every orderly history without nests, expression texts, data, unit and constant", "why_tests_cant": "Relates two runs over all models and reals; tests compare single numbers.", "anchors": ["cheval/model.py:ChoiceModel.run_stochastic", "cheval/api.py:ExpressionGroup", "cheval/core.py:multinomial_probabilities"]}
{"id": "C117", "title": "Assigned data are a snapshot", "statement": "After data are assigned to a symbol, runs use them as they were then, whatever is done later to the Series, array or frame of the user, to copies of the model or to subsets.", "quantifier": "all histories of assignments, in-place writes, copies and subsets", "why_tests_cant": "It ranges over all later histories and depends on which conversions share memory.", "anchors": ["cheval/api.py:VectorSymbol.assign", "cheval/api.py:VectorSymbol.copy", "cheval/api.py:TableSymbol.assign", "cheval/api.py:TableSymbol.copy", "cheval/api.py:TableSymbol.copy_subset", "cheval/utils.py:convert_series", "cheval/model.py:ChoiceModel.copy_subset"]}
{"id": "C118", "title": "More utility for one choice of a nested model", "statement": "In a model with nests, adding an expression that adds a positive value to one elemental choice only (`k @ nest.choice`) never lowers the probability that run_stochastic returns for it (and raises it if it was strictly between 0 and 1), and, unless a nest is inside a nest of a smaller scale and utilities are scaled, raises no other probability. (Exact arithmetic.)", "quantifier": "every orderly history with nests of any depth and scales, expression texts, data, unit and positive value", "why_tests_cant": "Relates two runs over all models, trees and reals.", "anchors": ["cheval/model.py:ChoiceModel.run_stochastic", "cheval/core.py:nested_probabilities", "cheval/api.py:ExpressionGroup", "cheval/model.py:ChoiceModel._flatten"]}
{"id": "C119", "title": "Nests of scale 1 make no difference", "statement": "If every nest of a model has scale 1 and the expressions add 0 to the utilities of the nests, run_stochastic returns, for every decision unit, the multinomial logit probabilities of the elemental choices alone, with their total as second output: the numbers returned by a run of a model without nests whose choices have the same utilities. (Exact arithmetic.)", "quantifier": "every pair of orderly histories, one with nests of any depth and one without, expression texts, data, unit, and setting of scale_utilities and precision checks", "why_tests_cant": "Relates two runs over all models, trees and reals.", "anchors": ["cheval/model.py:ChoiceModel.run_stochastic", "cheval/core.py:nested_probabilities", "cheval/core.py:multinomial_probabilities", "cheval/model.py:ChoiceModel._flatten"]}
{"id": "C120", "title": "Whole runs without nests satisfy independence of irrelevant alternatives", "statement": "If two models without nests share two choices, and their expressions give each of the two the same utility in both models, then run_stochastic returns the same odds of one against the other in both, whatever other choices, data, units and expressions there are. If the second model only has one choice more, with probability z, every other probability is 1 - z times what it was and the second output grows by e^u of the new choice; a choice whose utility is -inf changes nothing. (Exact arithmetic.)", "quantifier": "every pair of orderly histories, choices, expression texts, data and units", "why_tests_cant": "Relates two runs over all models and reals.", "anchors": ["cheval/model.py:ChoiceModel.run_stochastic", "cheval/core.py:multinomial_probabilities", "cheval/api.py:ExpressionGroup"]}
{"id": "C121", "title": "A constant in every utility of a model with nests", "statement": "If all elemental choices of a model with nests are on its last level and utilities are scaled, adding an unfiltered constant expression k (which applies to the nests' columns too) changes no probability returned by run_stochastic and multiplies its second output by e^(k * number of levels), so that its logarithm grows by k for each level. If elemental choices are on different levels this is false: the constant moves probability towards the deeper choices. (Exact arithmetic.)", "quantifier": "every pair of orderly histories of models with nests, depths, logsum scales, expression texts, data and units", "why_tests_cant": "Relates two runs over all trees and reals.", "anchors": ["cheval/model.py:ChoiceModel.run_stochastic", "cheval/core.py:nested_probabilities", "cheval/model.py:ChoiceModel._flatten"]}
{"id": "C122", "title": "Disabled choices and the order of choices in runs of nested models", "statement": "Take two models with nests and the same depth whose shared choices have the same names, nests, scales and utilities. If the elemental choices that only the second has all have the utility -inf (and no nest of the first is an elemental choice of the second or conversely), run_stochastic returns for the second every label and probability it returns for the first, probability 0 for the other choices, and the same second output: disabling choices is the same as leaving them out. If neither has further choices, the labels and probabilities are the same, in whatever order the choices were added. (Exact arithmetic.)", "quantifier": "every pair of orderly histories of models with nests, trees, expression texts, data and units", "why_tests_cant": "Relates two runs over all trees, orders of construction and reals.", "anchors": ["cheval/model.py:ChoiceModel.run_stochastic", "cheval/core.py:nested_probabilities", "cheval/model.py:ChoiceModel._flatten", "cheval/api.py:ChoiceNode.add_choice"]}
