# Formal model of cheval: design

The model is a set of shallow, executable Gallina functions that mirror the Python functions branch by
branch.  Python exceptions are values (`res A = Ok a | Err e`); methods that mutate and may raise return
`(new_state, res A)`, so that the state left behind by a failing call is visible.  Objects with identity
(choice nodes, utility tables, frames) live in heaps.  Nothing of the code is axiomatised: what is not
modelled is a parameter that theorems quantify over (see "Trusted base").

Each property is a theorem `Cxx_...` in a file `Prop*.v`.  Its statement uses the operations of the model and a
small specification from a file `Spec*.v`; beside it are `Example`s showing a concrete, non-trivial case that meets
its hypotheses.  Suffix `_refuted`: the faithful model violates the claim, and the theorem exhibits a witness.
Suffix `_partial`: only part of the claim is proved; the comment above the theorem states what is missing.
Where a claim is refuted we also prove, where possible, exactly what the code does instead.

(This file is assembled by `tools/design.py` from `tools/design_head.md` and the output of
`tools/assumptions.py`.)

## Layout (`rocq/theories`)

### Models

| file | models |
|---|---|
| `Prelude.v` | exceptions, `res`, list update, insertion-ordered dictionaries |
| `Arith.v` | the arithmetic interface `arith`; instances `XR` (exact extended reals: NaN, +-inf, IEEE special-value rules, no rounding, no overflow) and `B64` (IEEE binary64 from Flocq; exp and log are arbitrary functions) |
| `CoreModel.v` | `cheval/core.py` 27-301: samplers, multinomial and nested probabilities, over any `arith` |
| `ParModel.v` | `cheval/core.py` 307-504: `prange` loops run by any number of threads with thread-local generators, and the loads and stores of `fast_indexed_add` |
| `TreeModel.v` | `cheval/api.py` 24-109, `cheval/model.py` 77-215, 341-349, 614-620: choice nodes, choices, `_flatten`, validation of the tree |
| `ExprModel.v` | `cheval/parsing/*`, `cheval/api.py` 113-241: syntax trees, the transformer, '@' filters, dict literals, expression containers |
| `ScopeModel.v` | `cheval/api.py` 246-489, `cheval/utils.py`: number, vector, table and matrix symbols, assignment and alignment, attribute chains |
| `ModelModel.v` | `cheval/model.py` 27-75, 217-782: `ChoiceModel`: decision units, scope, validation, evaluation, runs, preval, copies, external partial utilities; worlds of several models |
| `DebugModel.v` | `cheval/model.py` 29, 51-52, 459-464, 501-507, 682, 732: `debug_id` and `debug_results`; histories with debugging |
| `CopyTree.v` | `cheval/model.py` 667-745 and `cheval/api.py` 24-109: which nodes copies share with the original (C76) |
| `LdfModel.v` | `cheval/ldf/*`: frames, links, indexers, row selection, reindexing, lookups, aggregations, fill values, `evaluate` |
| `LdfMore.v` | `cheval/ldf/api.py` 387-389, 752-778, 792-845, `cheval/ldf/missing_data.py` 82-93: `link_summary`, `get_link_target`, `pivot_table`, `temporary_fill_defaults` |
| `LdfTables.v` | linked frames as tables of a choice model: instance of the frame interface of `ScopeModel.v` |

### Specifications

`SpecSampling`, `SpecLogit`, `SpecNested` (real-number definitions of the models), `SpecTree` (well-formed trees),
`SpecExpr` (meaning of expressions before and after rewriting), `SpecDict` (dict literals), `SpecContainer`
(containers as values), `SpecScope` (labelled data), `SpecModel` (the meaning of a symbol in one cell; sums of
contributions), `SpecLdf` (keys, matching rows, paths, orderly histories), `SpecFill` (precedence of fill values), `SpecEnd` (what texts
mean in a cell; logit equations, results and draws of a whole run), `SpecIeee` (real values of doubles), `SpecExternal` (tables given by label), `SpecLinked` (values found by
following keys), `SpecMore` (the links of every frame as told by the history), `SpecCalc` (changes of elemental utilities; one node table inside another).

### Proofs and property files

| properties | lemmas | theorems |
|---|---|---|
| C01-C05 | `SamplingProofs` | `PropSampling` |
| C06-C12 | `MnlProofs` | `PropMultinomial` |
| C13-C18 | `NestedProofs`, `NestedExact`, `NestedMore` | `PropNested` |
| C19-C23 | `ParProofs` | `PropParallel`, `PropLost` |
| C24-C31, C75 | `DictProofs`, `TreeProofs`, `TreeMore`, `TreeHist`, `TreeRow` | `PropTree`, `PropTreeMore` |
| C32, C33, C36, C37 | `ExprProofs`, `ExprUses`, `ExprMeaning`, `ExprNames`, `ExprCounts` | `PropExpr`, `PropNames` |
| C38, C39 | `ExprDict` | `PropDict` |
| C34, C35, C41, C42 | `ExprContainer`, `ExprWorld`, `ExprSets` | `PropContainer` |
| C46-C49 | `ScopeProofs` | `PropScope` |
| C40, C43, C44, C51, C59 | `ModelProofs`, `KernelProofs`, `EvalProofs` | `PropState` |
| C45, C50 | `ModelWorld`, `ModelHist`, `ModelTabs`, `RunProofs` | `PropUtility` |
| C52, C53, C30 | same | `PropRerun`, `PropStale`, `TreeMoved`, `PropMoved`, `PropTop` |
| C106, C107 | same | `PropFailed`, `PropPoison` |
| C108, C109 | `ExprSame`, `SpecUnits`, `RunResult` | `PropUnits`, `UnitsExample` |
| C110, C111 | `SpecOrder` | `PropOrder` |
| C112 | `ExprModel`, `ExprNull`, `LdfModel` | `PropAggs` |
| C113 | `SpecUnits` | `PropShuffle` |
| C114, C115 | `ConvModel` | `PropConv` |
| C116 | C82, C83 (whole runs) over `XR` | `PropConst` |
| C118 | C82, C101, the flattening (`TreeMore`) | `PropOwn` |
| C119 | C82, C16, the flattening | `PropUnit` |
| C120 | C82, C83, C06 | `PropOdds` |
| C121 | C116, C82, C90 | `PropLevel` |
| C122 | C104, C103, C82, C26 | `PropLess` |
| C54, C55 | `EvalTransfer`, `ModelInv`, `PrevalExamples` | `PropPreval` |
| C56, C57, C76 | same, `CopyTree`, `CopyExamples` | `PropCopy`, `PropIsolation`, `CopyTree` |
| C58 | same | `PropExternal` |
| C60, C61 | `LdfProofs`, `LdfKeys`, `LdfReads`, `LdfInv`, `LdfGood`, `LdfLookup`, `LdfExample` | `PropLookup` |
| C69, C77, C78 | `LdfLinks`, `LdfSim`, `LdfNorm` | `PropReads`, `PropLater` |
| C62, C72, C79 | same | `PropLinkTo`, `PropLinkErrors` |
| C63, C64, C80, C81 | `LdfGroups` | `PropAgg` |
| C65 | `LdfSlice` | `PropSlice` |
| C66, C67 | same | `PropRows` |
| C70, C71 | same | `PropFill` |
| C73 | same | `PropEvaluate` |
| C57 (linked), C74 | `LdfCols`, `LdfTables` | `PropTables` |
| C68 | same | `PropRefresh` |
| C82-C85 | `EndProofs`, `OutProofs`, `EndExample` | `PropEnd` |
| C88 | `LinkedProofs` | `PropLinked` |
| C89 | same as C58, C82 | `PropRunExternal` |
| C90, C91 | `DebugModel` (model), C82's lemmas | `PropDebug` |
| C86, C87, C03 (doubles) | `IeeeProofs` | `PropIeee` |
| C92 | `NestedIeee`, `ModelTrees` | `PropNestedIeee` |
| C95 | `NestedSum` | `PropNestedSum` |
| C96 | C95's and C84's lemmas | `PropChoice` |
| C97, C98, C99 | C77's lemmas, `LdfLinks` | `PropMore` |
| C100-C105, C85 | `NestedCalc`, `NestedGrad`, `NestedEmbed` | `PropNestedCalc`, `PropLogsum` |
| C93, C94 | C01's and C87's lemmas | `PropWeights` |
| C117 | `AliasModel` (model) | `PropAlias` |

## Property by property

| id | modelled | method |
|---|---|---|
| C01 | `sample_once` over XR and over any arithmetic | induction on the list, cells as partial sums |
| C02 | same | corollary of C01 |
| C03 | `sample_once`, `simple_probabilities` over B64 | refuted by computation in Flocq; only the last alternative can be affected, and only by numbers within 2n rounding units of 1 |
| C04 | `logarithmic_search` over any arithmetic | loop invariant on (lower, upper); fuel shown sufficient |
| C05 | `sample_multi`, `nbf_cumsum` over B64 | monotonicity of rounded addition (Flocq), then C04 |
| C06-C11 | `multinomial_probabilities` over XR | algebra of finite sums over R |
| C12 | same, and B64 | refuted with +inf and by overflow; partial = C06 |
| C13 | `nested_probabilities` over any arithmetic | loop invariants of the four passes; the equations have one solution |
| C14-C17 | same over XR | C13, sums grouped by parent, induction on levels |
| C18 | both evaluators over any arithmetic with x/1=x | C13 specialised |
| C19, C20 | iterations of `prange` loops as programs, thread-local generators | invariant over the small-step relation: any interleaving ends in the sequential result |
| C21 | `worker_weighted_sample` | refuted (generator filled by unseeded threads; tuple unpacking) |
| C22, C23 | load/store micro-steps | invariant over the small-step relation; refuted for repeated labels by a schedule |
| C24-C26, C31 | object heap of nodes, histories of calls | invariant over the list of operations |
| C27 | tree + nested/multinomial probabilities over XR | C14 + C26 + column filter |
| C28-C30, C75 | same | refuted with concrete histories; the parts that hold are proved |
| C32, C33 | syntax trees, transformer in a state and exception monad | nested induction; refuted below unary minus |
| C34, C35, C41, C42 | histories of container operations | invariants, refinement to plain values; C35, C42 refuted |
| C36 | substitution names as strings | refuted (a#10 / a1#0); proved for names not ending in a digit; the exact condition by counting usages per symbol |
| C37 | strings | induction |
| C38, C39 | dict literals against the choice labels | meaning node by node; float32 rounding refutes exactness |
| C40, C43, C44, C51, C59 | `ChoiceModel` state machine | invariants of histories; cell-wise evaluation |
| C45 | validation + evaluation | invariant: registered symbols are declared and assigned |
| C46-C49 | assignment to symbols | direct, labels by position; C48, C49 refuted, opposite proved |
| C50 | evaluation over any arithmetic | every cell is the sum of the meanings, by induction over the expressions |
| C52, C53 | cached utilities in the world of models | refuted; what is returned instead is proved |
| C54, C55 | preval | cell-wise sums in exact arithmetic; exact set of removed symbols; refuted parts |
| C56, C76 | copies in a world of any number of models | frame property of every operation; evaluation transfer; refuted parts |
| C57 | copy_subset, plain and linked tables | row selection commutes with every kind of symbol; refuted for delayed links |
| C58 | alignment + ParModel | C22 under the alignment; refuted for empty subsets |
| C60, C61 | frames, links, lookups in a heap of frames | invariant of orderly histories, induction on the path |
| C62, C72, C79 | `link_to` | exact condition for acceptance; classification against the keys |
| C63, C64, C80, C81 | grouping and reduction | codes = matching rows; shift by one with missing keys |
| C65 | row selection | indexer of the selection = selected indexer |
| C66, C67 | finalised and reindexed frames | exactly what is read instead, for every reordering |
| C68 | refresh | exact reading after a refresh, any history |
| C69, C77, C78 | stored indexers | simulation between frames that differ in stored indexers only |
| C70, C71 | fill settings | refinement of histories to a precedence rule |
| C73 | `evaluate` | which value each name stands for |
| C82 | `run_utilities` against the texts | C50 composed with the correctness of the transformer (C32-C39), cell by cell |
| C83, C84 | `RunOut`: all outputs of both run methods, any schedule | C13, C19, C20, C26, C59 composed |
| C85 | top-level term over XR | refuted: it is the sum of exponentials |
| C86, C87 | `multinomial_probabilities` over B64 | relative error of every rounded operation (Flocq), induction on the sum |
| C88 | linked frames as tables of a choice model | C61, C63 composed with C82 |
| C90 | `DebugModel`: evaluation with the record, histories with `debug_id` | simulation against the plain model; prefixes of the expression list (C82) |
| C91 | same | refuted; the exact behaviour proved |
| C92 | `nested_probabilities` over B64, whole runs | the nested logit equations (C13) hold in any arithmetic; bounds of rounded sums, quotients and products; invariant of the trees over histories |
| C93 | `simple_probabilities`, `simple_sample`, the worker | closed form over R, C01's cells, C87's bounds, footprints of the parallel loop |
| C95 | `nested_probabilities` over B64, whole runs | the children of a feasible nest sum to 1 within rounding (relative and absolute errors, Flocq); induction over the tree from the leaves |
| C96 | both run methods on one state | the rows are shared (C84); adding the zeros of the nests is exact; C95's bound on the total |
| C97 | links of every frame folded from the history; `link_summary`, `get_link_target` | invariant over histories: what each link shows is what the fold says |
| C98 | `pivot_table` over an abstract pandas | names are resolved one by one; reads change no later read (C77); lists refuted |
| C99 | the loop and the `finally` of the fill manager; generators that never run | induction over the keyword arguments: the saved values are the original ones |
| C100 | `nested_probabilities` over the reals | every term is multiplied by e^(c/divisor); induction from the leaves |
| C101 | same | terms grow along the path above the choice and nowhere else; probability per unit of term falls; inductions up and down the tree |
| C102 | same, as a function of one utility | derivatives of all terms (chain rule, induction); the weighted derivatives add up over the children, so the top derivative equals the one leaf's |
| C103, C104 | two node tables, one inside the other | induction from the leaves: terms agree, sums of groups are permutations plus zeros |
| C105 | same | every node weighs at most what its nest weighs (any scale); a nest at most its children together (scale at most 1: sums of powers); inductions over the tree |
| C106 | model histories, runs that return an error and the state they leave | false: two-line counterexample; the state after a failure is computed from `evaluate` (the expressions evaluated before the failing one), then the theorem on runs that start from a kept table |
| C107 | same | false: counterexample; invariant over all calls: the kept table of the model has a NaN cell (sums with NaN are NaN, other models write other tables) |
| C108 | pairs of model histories | an accepted expression depends on its text only (visitor run in two containers); the value of each expression in the two cells agrees by locality of numexpr; then the rows, the logit functions of the row, and the draws by position |
| C109 | a model and its `copy_subset` | false: counterexample for every generator and seed that separates the first two numbers |
| C110 | reorderings of set-up calls | neighbouring calls commute up to an equivalence of worlds that every call and run respects |
| C111 | assignments to one symbol | an accepted assignment overwrites the data field |
| C112 | expressions calling an aggregation | false for `quantile`; the accepted ones are characterised |
| C113 | pairs of model histories | false with rounding and with OUT; otherwise the sum of a permutation of the values |
| C114 | `convert_series` on columns | false for missing categories and large integers; otherwise the width is at least every length; IEEE rounding is exact up to 2^53 |
| C115 | `float(data)` | false for texts; exact otherwise |
| C116 | pairs of runs, one more expression | C82, C83 and the logit formula (C06) in exact arithmetic; the sum of the texts with one more at the end |
| C117 | histories of assignments, in-place writes, copies, subsets over a memory model (`AliasModel`) | false: counterexample; otherwise invariants of the slot of a symbol over every later history |
| C118 | pairs of runs of models with nests, one more expression | the table of the tree is well-formed with positive scales, so C101 applies to the two rows of utilities of C82 |
| C119 | pairs of runs, one with nests and one without | the rows of utilities of C82 go through C16 (collapse to the multinomial) and the labels of the elemental choices; the run without nests through C06 |
| C120 | pairs of runs of models without nests | the rows of utilities of C82 go through the logit formula; the odds and the added term are algebra |
| C121 | the nested formula on every table, then pairs of runs | induction up the table: the term of a node grows by e^(k (levels below and including it) / divisor); conditional probabilities do not change; the whole run by C82 |
| C122 | pairs of runs of models with nests, a map between their nodes | the map on nodes gives a map on table positions (names and parents determine labels), so C104 applies to the rows of utilities of C82; labels by C26 |
| C94 | same | refuted for every length, number and schedule |
| C89 | `add_partial` then `run_utilities`; `MGive` calls in histories, whose outcome is any outcome of the parallel loop | C58 by induction on the tables (and over histories with other calls between them), composed with C82 |
| C74 | chains in utility expressions | the frame interface of the choice model instantiated with linked frames |

Every listed property can be expressed in the model; none is `not_applicable`.

## Trusted base

1. **Coq 8.16.1's kernel**, including its `vm_compute` reduction (used for examples and refutations by computation).
   No kernel check is switched off, there are no axioms of our own, no functors or module types, no plugins.
2. **The reading of the Python code** in the model files (each definition cites the lines it models and names its
   simplifications), and of the parts of pandas, numpy, numexpr, numba, ast and astor they call.
3. **The axioms `Print Assumptions` lists** (end of this file): standard-library axioms only, coming from Coq's real
   numbers (`ClassicalDedekindReals`, `Classical_Prop.classic`, functional extensionality), which Flocq and the
   theorems about exact arithmetic use.

### What is modelled how

* *Numbers.*  Theorems "over any arithmetic" hold for IEEE doubles as numba computes them (no function of `core.py`
  is compiled with `fastmath`, so sums are not reassociated).  Theorems over `XR` are about exact arithmetic: no rounding, no overflow; exp and log are the real
  functions.  In `B64` exp and log are arbitrary functions, so that results there do not depend on the C library.
  The precision of the table (4 or 8 bytes) is a parameter (`ev_f32` rounds dict literals).
* *Python.*  Syntax trees of Python 3.7 (`Num`, `Str`); strings are ASCII; the parser is a parameter; `astor.to_source`
  is identified with the tree it prints; sets are lists without regard to order; a mutating call that raises leaves
  the state in which it raised.
* *numexpr* is a parameter (`ev_ne`, `v_ne`): any function of the tree and of the values of the names occurring in it,
  applied cell by cell with numpy's broadcasting; the list of supported functions is a parameter.
* *pandas* 1.1-1.4.  Indices are lists of labels with an equality; multi-indices are lists of tuples; columns are lists
  of cells, with a kind (number, text, ...) that matters for fill values and conversions only.  Memory sharing between
  frames and arrays is not modelled (assigned data are snapshots).  Iterating over `groupby` finalises each group with
  the grouped frame (`LGroup`).  `convert_series` commutes with row selection except for text columns of which no row
  is selected (`conv_rows`, hypothesis of C57).
* *Linked frames as tables* (`LdfTables.v`) are snapshots: by C77 reading a frame changes no later read; a table with a
  delayed link that is read before rows are selected is not represented (C57 for linked tables assumes stored indexers,
  and C57_delayed_links_refuted shows the other case).
* *Threads.*  Sequentially consistent memory; an aligned 8-byte load or store is one action; numba's scheduler may hand
  iterations to threads in any way.
* *Random numbers.*  The generator is a parameter (any state type, any step); each thread has its own.

### What is not modelled

Version handling (`_version.py`), logging, `debug_id` with repeated labels, `n_threads` as a number (any number of threads is covered), dtypes other than the kinds above,
`__dir__`, `__str__`, `read_*`/`to_csv`, `categorical` data other than as texts, deep versus shallow copies of frame data, and pandas
methods that are not listed as operations of `LdfModel.v` (`lop`).

## What `Print Assumptions` lists

Output of `tools/assumptions.py`: every theorem of `MANIFEST.json`, grouped by the axioms it rests on.

