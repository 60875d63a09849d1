# Formal model of bartpy in Rocq (Coq 8.16.1)

## Layout of rocq/theories

* `Base Fl Ext` basic types: results with exceptions, covariate values, extended reals.
* `M*.v` the model, one file per group of files of /repo. Every definition cites the lines it models.
  `MHist MTreeHist MModelHist` hold no code of /repo: they are the histories of calls theorems range over.
* `Spec*.v` the vocabulary of the theorem statements, independent of the model's helpers
  (decision trees walked from the root, relative frequencies, averages, recodings of data, chances of draws).
* `L*.v P*.v` lemmas and invariants; nobody needs to read them to understand the theorems.
* `Properties_*.v` the theorems (prefix `Cnn_`), each followed by `Print Assumptions` and by an `Example`
  (`Cnn_..._case`) showing a concrete case that meets the hypotheses. `_refuted` theorems exhibit a case in
  which the documented or intended behaviour fails.

## What is modelled and how

* Everything is a total Gallina function mirroring one Python function, with exceptions as values
  (`res A := Ok a | Raise e | NoDraws`). Random draws are inputs: every sampler takes a stream (list) of
  draws, theorems quantify over all streams; `NoDraws` means "the stream ended, the real program would
  still be running", never a normal result.
* Covariates are IEEE-like values `FNaN | FNInf | FFin q | FPInf` (q a canonical rational): the code only
  compares covariates, comparison of doubles is exact, so this is faithful including NaN and infinities.
* Targets, leaf values, sigma and log ratios are real numbers (Coq `R`); log-ratio code that can produce
  inf/NaN uses extended reals `XNaN | XNInf | XFin r | XPInf`. **Rounding and overflow are not modelled there**; `MFloat` to `MFloat10` model the arithmetic of the functions listed below in IEEE binary64 (C101 to C103, C108, C109, C111 to C115, C117, C120).
  A result that numpy would make nan or inf where the model uses `R` is the exception `XNonFinite`.
* Node objects live in a heap (ids, child links, identity comparison) because `mutate`, `deep_copy_node`
  and `update_y` depend on identity and aliasing.
* Split/Data objects are stored by value in nodes. Where Python shares one Split between a leaf and its
  replacement only one of the two is ever in the tree; memo caches are shown to be unobservable (C03, C09).
  The Split objects that the oblivious sampler shares between nodes are equal copies.
* Generators (`Model.refreshed_trees`, `SampleSchedule.steps`) are state machines: a program counter and the
  generator's local variables. The lambdas they yield read those variables when called (C42).
* joblib: worker processes are independent copies of the estimator and of the heap; n_jobs=1 runs the chains in
  the calling process, one after the other, on the estimator itself (C68 relates the two).

## Code that is modelled

| file of /repo/bartpy | model | left out |
|---|---|---|
| data.py | MData, MIntTarget (integer targets), MSingle and MSingle2 (float32 targets), MConvert (dtypes: ensure_numpy_array, ensure_float_array, format_covariate_matrix, make_bartpy_data) | string, date, float32, short and unsigned integer covariate columns, uint64 targets, subclasses of DataFrame; pandas' choice of a common dtype and numpy's int64 to float64 conversion are stated in MConvert and trusted |
| splitcondition.py, split.py | MData, MSplit, MSplitEq, MPredictType (split values and new data of other dtypes; numpy's promotion of an int64 compared with a float64 is trusted), MPredict32 (float32 rows; numpy's promotion of a float32 array compared with a float64 scalar, before and from version 2, is trusted) | `__str__` |
| node.py, mutation.py, tree.py | MTree | `__str__` |
| model.py, sigma.py | MModel | `Sigma.current_unnormalized_value` is in MDiag |
| samplers/unconstrainedtree/*, samplers/treemutation.py, samplers/leafnode.py | MSampler | the commented-out VectorizedLeafNodeSampler |
| samplers/oblivioustrees/* | MOblivious, MObModel (the ensemble sampled with it), MObSklearn (estimators fitted with it) | |
| samplers/scalar.py | MScalar | |
| samplers/sigma.py, schedule.py, modelsampler.py, trace.py | MModel | progress bar (tqdm) |
| sklearnmodel.py, runner.py | MSklearn | joblib itself; get_params, set_params and clone are in MEstimator |
| extensions/baseestimator.py, ols.py | MSklearn | the base estimator and statsmodels are arbitrary functions |
| initializers/* | MInit | scikit-learn's gradient boosting: the fitted tree arrays are arbitrary inputs |
| diagnostics/features.py, features/* | MFeatures | plots |
| diagnostics/{trees,sigma,sampling,residuals}.py | MDiag | only the numbers handed to matplotlib |
| diagnostics/diagnostics.py | MDiag | which plots can be drawn |
| sklearnmodel.py as an estimator; constructors of extensions/* | MEstimator | scikit-learn's BaseEstimator and clone follow its source (0.20-0.23); initializer is None |
| score, inherited by sklearnmodel.py and extensions/* from scikit-learn's RegressorMixin | MScore | weights (sample_weight=None) |
| the process-wide random state | MSeed | |
| arithmetic of data.py Target, model.py, sklearnmodel.py predict, residuals, l2_error and rmse, samplers/leafnode.py, samplers/sigma.py, likihoodratio.py and the acceptance test in double precision | MFloat, MFloat2, MFloat3, MFloat4, MFloat5, MFloat6, MFloat7, MFloat8, MFloat9, MFloat10 (powers and logarithms by the C library are relations with a stated error; the format and its operations are Flocq's, which adds no axioms) | NaN payloads; integer and float32 targets |
| plotting.py, /repo/examples | not modelled | plotting.py reads `model.data.unnormalized_y`, which Data does not have; examples only call the API |

Simplifications, each repeated at its definition:

* numpy broadcasting of arrays of different shapes is not modelled: such operations are errors in the model.
* `thin` enters `ModelSampler.samples` only through `1./thin`; the model takes that quotient as an exact rational.
* `np.percentile` is modelled from its documentation (linear interpolation), `SelectorMixin.transform` from
  scikit-learn's source of that period.
* `len(np.unique(col))` is modelled for columns without NaN.
* `np.random.choice` takes the index draw modulo the length of the list. `chance` (C74) therefore counts index
  draws that are uniform below a common multiple of the lengths.
* Recursion: Python's recursion limit is a parameter of `propose` and `prediction_samples`; elsewhere fuel
  exceeds the depth of every tree, which is proved where it matters.

## Trusted base

* Coq's kernel (8.16.1), in particular `vm_compute`, which some examples use. `coqchk` accepts the compiled files.
* The reading of the Python and numpy code recorded in the comments of the `M*.v` files. No extraction, no plugin,
  no kernel check switched off, no axiom of our own, no functor or module type.
* Axioms, all from the standard library, as listed by `Print Assumptions` under every theorem:
  * D `ClassicalDedekindReals.sig_forall_dec`, N `ClassicalDedekindReals.sig_not_dec`,
    F `FunctionalExtensionality.functional_extensionality_dep`: come with the real numbers of the standard library;
  * C `Classical_Prop.classic`: excluded middle, from lemmas of the standard library about real numbers.
  The last table of this file gives the letters for each theorem; `-` means closed under the global context.

## Plan per property

| id | property | model / proof |
|----|----------|--------------------|
| C01 | A column offered for splitting really has two different values | MData.v `is_not_constant`, cache-carrying `covmat`; induction on series. |
| C02 | Exactly which columns are offered for splitting (defect: first row is ignored) | exact characterisation by induction, witnesses by computation. |
| C03 | Covariate caches are invisible | op-history on `data` (queries with cache write-back, splits); invariant "every filled cache cell equals the uncached answer", induction over history. |
| C04 | proportion_of_value_in_variable is the value's relative frequency | case split on the two code paths, counting lemma for all-distinct columns. |
| C05 | Sampled split values never create an empty side | draw stream as list of indices, induction on the stream. |
| C06 | The split-value rejection loop stops as soon as a non-maximal row is drawn | same induction; existence of a non-maximal row from C01. |
| C07 | A split sends every row of the node to exactly one child | row-wise case analysis on the comparison; NaN witness by computation. |
| C08 | Row counts of children, computed or carried, are exact | counting lemma for masks; lifted to any depth through the history invariant of C09. |
| C09 | The cached target sum is always the sum over the node's rows | history invariant: cached sum valid -> equals masked sum. |
| C10 | Split condition objects carry state (defect: reuse corrupts counts) | direct; witness by computation. |
| C11 | Target normalisation maps onto [-0.5, 0.5] and back | real-number algebra (lra/field) over min/max folds; NaN case in extended reals. |
| C12 | Normalisation forgets location and scale | algebra. |
| C13 | A combined condition is the conjunction of its splits | induction on the condition list, interval invariant. |
| C14 | In-sample and out-of-sample membership agree | induction on the condition list, uses C13. |
| C15 | The most recent condition is the last one added | induction/`last`. |
| C16 | Mutated trees stay proper binary trees | heap of node objects with ids; `mutate` as list remove/append + relinking loop; refinement to an inductive tree read off the heap; induction over mutation histories. |
| C17 | Leaves partition the training rows | from C16 invariant + C07 + C05. |
| C18 | Out-of-sample tree prediction is the value found by walking down the tree | from C16 invariant + C13: leaf regions form a decision tree. |
| C19 | Prediction is row-wise | `map` fusion on the out-of-sample predict loop. |
| C20 | Growing and then pruning the same node restores the tree's structure | compose the two refinement lemmas of C16. |
| C21 | A mutation touches only the node it names | frame lemma on heaps. |
| C22 | A non-trivial tree can always be pruned, a trivial one never | structural induction on trees through the refinement. |
| C23 | Mutation objects validate their node kind | case analysis. |
| C24 | mutate is not failure-atomic (defect) | case analysis + witness. |
| C25 | Cached in-sample prediction is never stale in the sampling protocol, but set_value does not invalidate it (defect) | op-history with staleness ghost flag; witness. |
| C26 | In-sample prediction of a grown tree that was never predicted before fails (defect) | case analysis on buffer allocation. |
| C27 | tree.predict() equals tree.predict(X_train) | C17 + C14. |
| C28 | update_y reaches every node of its tree and nothing else | fuelled recursion over child links, frame lemma. |
| C29 | Backfitting: each tree is fitted to the residual of all the others | offset invariant over micro-steps open/close of refreshed_trees. |
| C30 | Interrupting a pass corrupts all later residuals (defect) | the same invariant with a non-zero offset. |
| C31 | A new model predicts zero and its trees hold no target (defect) | computation of the constructor. |
| C32 | Leaf draws follow the conjugate posterior mean, with a wrong spread (defect) | field/nra. |
| C33 | Sigma draws use the inverse-gamma posterior and stay positive | algebra + state invariant. |
| C34 | The likelihood ratio of a prune is the inverse of the grow's | algebra; positivity. |
| C35 | The likelihood ratio is not the integrated Gaussian likelihood ratio (defect) | algebra + witness. |
| C36 | The probability of the chosen split cancels out of the acceptance ratio | algebra of extended reals. |
| C37 | Acceptance compares a uniform draw with the LOG ratio (defect) | case analysis on extended reals. |
| C38 | Trees with fewer than two splittable leaves can never be pruned, with none are frozen (defect) | C36 formulas + proposer analysis + induction over the future. |
| C39 | Every proposal is legal | induction over the draw stream. |
| C40 | Proposing never returns when no move exists (defect) | induction over stream and recursion limit. |
| C41 | A Gibbs step visits every tree and every post-mutation leaf exactly once | generator as a state machine consumed eagerly; event trace. |
| C42 | Scheduled steps must be run as they are produced (defect: late binding) | same generator, deferred consumption. |
| C43 | Thinning keeps one in k samples, starting with the first | number theory on rationals. |
| C44 | The three traces are aligned | induction on the sampling loop. |
| C45 | Acceptance rates are rates | induction on the step trace. |
| C46 | Stored posterior samples never change | frame lemma: sampling writes only to live node ids; copies have fresh ids. |
| C47 | Stored samples stay linked to live nodes (defect) | witness. |
| C48 | Scalar samplers hand out every random draw exactly once | induction on calls. |
| C49 | predict() equals predict(X_train) | C46 + C27 + C29 along the whole run. |
| C50 | Point predictions are averages of the posterior samples in original units | list algebra. |
| C51 | Predictions are equivariant under affine changes of the target | C12 + determinism in the normalised target. |
| C52 | predict without X needs stored predictions | case analysis. |
| C53 | Residuals, squared errors and rmse are consistent; rmse is not a mean (defect) | algebra. |
| C54 | unnormalized_residuals is the residual in original units | algebra. |
| C55 | run_models returns the wrong samples and overwrites the caller's model (defect) | induction over extracts with the mutated caller. |
| C56 | Chains are regrouped correctly | chunking induction. |
| C57 | prediction_samples can never be read (defect) | fuel induction. |
| C58 | ResidualBART adds base and tree predictions; its residuals() is wrong (defect) | algebra. |
| C59 | Feature split proportions | counting induction on tree shapes. |
| C60 | Feature selection keeps exactly the features above their threshold | list/map lemmas. |
| C61 | Null-distribution cutoff is misread as a percentage (defect) | linear-interpolation percentile model. |
| C62 | Importing an sklearn tree preserves its predictions | structural induction on the sklearn tree, uses C16/C18. |
| C63 | Oblivious trees: perfect shape, but leaves can share rows (defect) | witness + invariant. |
| C64 | Permutation null data alters one column only, but is scored on the wrong rows (defect) | list lemmas over folds and permutations; C73 for the independence of folds. |
| C65 | A row with a missing or -inf covariate is predicted as 0 by every tree (defect) | C13 on rows with NaN/-inf: no leaf of any tree takes them; lifted over reachable models. |
| C66 | A Gibbs step can fail only by exhausting the recursion limit, and always can succeed if a covariate varies | existence of draw streams by induction over the Gibbs step; stuckness from C38/C40 for constant covariates. |
| C69 | Model's default initializer makes construction fail (defect) | induction over the trees of an initialised model, uses C62 and C29. |
| C70 | SelectNullDistributionThreshold swaps real and permuted runs (defect) | induction over the runs of run_models (C55) and the counting of C59. |
| C71 | Support masks cover only the columns that were used (defect) | list lemmas on sorted column lists and masks. |
| C67 | Only the order of the covariate values matters | relational proof: a renaming of covariate values commutes with every function of the model (PRel*.v). |
| C68 | Where the chains run does not matter | both backends are related to one canonical run in an empty heap (PRel2.v). |
| C73 | Fitting again starts afresh | same relational proof as C68 with a used estimator. |
| C72 | Every legal move, and no other, can be proposed | case analysis of the proposer for a given tree; converse by exhibiting the draws. |
| C74 | Probability of a proposed move, and the value the code uses for it (defect) | the share of index draws below any common multiple of the sizes that lead to a given proposal (`chance` in SpecPropose.v), by counting. |
| C75 | Transition ratios are not Hastings ratios (defect) | C74 compared with log_transition_ratio; extended-real algebra; counts of splittable leaves before and after a move (PCounts.v). |
| C76 | What the diagnostic plots show | MDiag.v models the numbers the plotting functions compute. The stored nodes are related to the trees they came from (SpecFeatures.consists_of, with depths), and the chain's traces to C45; residuals by C53, units by C51. |
| C77 | Whether training data can be fitted depends on which row comes first (defect) | fit possible iff `varies` (C66 liveness and stuckness); permutations keep the tail; two-row-order witness. |
| C78 | With some settings trees never grow, silently (defect) | arithmetic of dead log ratios (forbids_growth in SpecAlpha); invariant over the Gibbs driver that all node lists stay singletons; lifted through burn-in, sampling and the chains to fit. Conversely the ratio at the root computed for all other settings, with the small-noise limit of C85. For the oblivious sampler the same argument with its own ratios (PObAlpha), summed over the proposals of a level. |
| C79 | Recording does not change the run: thinning and the store flags only select what is kept | Relational proof (PRel.v, generalised): a run in a heap with extra objects beyond some address does the same, up to the shift of later addresses. `warm` models (caches filled) are unaffected by Model.predict. PBook.v composes both over the loop; addresses_ok is shown for every reachable model. |
| C80 | Sampling can be resumed, but the thinning phase restarts | loop splitting and periodicity of `ss % (1/thin) == 0`; witness for the phase. |
| C81 | Parameters of an estimator: get_params, set_params and clone describe what fit will do, except for the tree sampler (defect) | MEstimator.v models the object with its attributes and the sampler captured by the schedule. Induction over the history; two fits with equal settings behave alike by the relational theorem behind C68/C73; the ignored sampler is refuted with one that never grows, which is shown to fit nothing. |
| C82 | np.random.seed does not make runs in one process reproducible (defect) | MSeed.v: a generator state and a family of caches; invariant cache length = leftover of the number of calls; equality of runs with equal caches; counting generator as witness. |
| C83 | ResidualBART and OLS cannot predict for the training data without X (defect) | every stored sample has n_trees trees (C59's `consists_of`), each of which raises. |
| C84 | ResidualBART trains the caller's base estimator: two of them can interfere (defect) | MEstimator.v: a store of base estimator objects; frame argument for different addresses, witness for a shared one. |
| C85 | The noise level decides what the tree sampler accepts | closed forms of the log ratio (C36) and explicit bounds of the likelihood ratio as a function of sigma (PNoise.v: continuity at 0 and logarithm bounds); concrete accepted grow and prune beside the theorems. |
| C86 | Sampling an ensemble of oblivious trees | MObModel.v is the ModelSampler loop of MModel.v with the oblivious tree sampler as the tree call; the invariant of C29-C31 is rebuilt with 'the value of the last leaf holding the row' as a tree's prediction (PObModel.v to PObModel5.v), by induction over the driver loop and over histories; completed requests are built from rejected prunes of one-leaf trees. |
| C87 | Facts given to Data are believed, not checked (defect) | make_data of MData.v with all optional arguments; SpecGiven.v says what an object built from given facts is. By induction over the history of calls: what the target and the covariate matrix believe (PGiven.v), hence what they answer; a hidden column stays hidden in children by the same induction. The refutation evaluates one object with four wrong facts. |
| C88 | At a fixed target and noise level the tree sampler only climbs, never returns and stops (defect) | SpecScore.v defines the score of a tree by recursion over its splits and the rows that arrive at them, and stretches of sampler steps and harmless calls. The ratios of C36 are rewritten as differences of scores (substituting a subtree changes the score by the score of the subtree, PScore.v); stretches by induction (PScore2.v). The bound: every tree the sampler reaches has its cuts among the cells of the matrix and is no higher than the number of rows, so it is one of finitely many, and the trees visited have different scores. |
| C89 | Fitting an estimator with the oblivious tree sampler | MObSklearn.v is fit of MSklearn.v with the chains of MObModel.v; the facts about chains of C49-C50 are rebuilt on the invariant of C86 (PObSklearn.v), what a tree says about new rows is obtained by induction over the tree's shape: a clean row satisfies the conditions of at least one leaf, and the loop over the leaves lets the last one win (PObSklearn2.v); completed fits come from C86_possible. |
| C90 | feature_importance returns only for two equal halves and a model already trained (defect) | What KFold and np.random.permutation may yield is a specification (SpecImportance.v: kfold, null_folds). The result is C64_original_errors and C64_scores put together; sizes of the parts come from counting (a partition of n rows into k parts each of half size has k = 2); a returning call is built from completed fits (PSklearn3.v) with the identity permutation. |
| C91 | Predictions are flat beyond and between the training values | Consequence of C92 (SpecGrown.v: same_side, clip, training_value): a row is only ever compared with thresholds, which are training values other than the largest, so the walk through every tree of every stored sample is the same. |
| C92 | Fitted trees only cut where the data are, and are no bigger than the data | The invariant `filled` of the sampler's trees (PTreeHist.v), kept by every step of the model (PModel8.v, PModel11.v), is carried through the chains to the stored samples (PSklearn.v: chain_ran) and restated without rules as SpecGrown.splits_rows; sizes by induction on the tree, splitting the list of different rows. |
| C93 | The inherited score is R squared: it ranks as rmse does, and ignores the units and duplicated rows | RegressorMixin.score and r2_score are modelled in MScore.v on top of predict (MSklearn.v); the specification (SpecQuality.v) is the sum of squares of the errors and of the deviations. Proved by algebra over real vectors: the error of a constant is smallest at the mean. |
| C94 | Estimators fitted with the oblivious tree sampler follow changes of units, ignore recodings, and forget earlier fits | As C51, C67, C68 and C73: every function of MOblivious.v, MObModel.v and MObSklearn.v commutes with the change of representation of PRel.v (PObRel.v), and both fits are compared with the same chains run alone in an empty heap (PObRel2.v). |
| C95 | A constant column changes nothing | Inserting a column is a translation of matrices, split conditions, nodes, heaps and models under which every function of the model commutes (PCol.v, PColOb.v), for chains in worker processes starting from an empty heap; C68's and C94's comparison of fits carries it to any heap and to chains run in the calling process. SpecColumn.v defines the matrix with the column. |
| C96 | What the oblivious sampler proposes when it grows, and how often | A grow proposal of the oblivious sampler is a pass over the leaves; each leaf uses its own index draws, so the share of draw sequences that give a choice of cuts is a product (PObPropose.v), counted as in C74. SpecObPropose.v says what a choice of cuts and its probability are. |
| C97 | Oblivious fits are flat between and beyond the training values; their trees can outgrow the data (defect) | The rules on the paths of a reached oblivious tree are training values exceeded by another (POblivious.v's invariant), so comparing a row with them only depends on the sides it lies on (PObFlat.v). For the size: a tree all of whose leaves cannot be split stays so when grown, and its grows consume no index draws and are accepted if pruning is likely enough (PObSize.v). SpecObFlat.v says what a tree of the sampler is. |
| C98 | Feature selection and feature importance do not depend on units or coding | the relation of C51/C67 between two fits (PRel2, PRel3), which also relates the variables and depths of all stored trees, lifted through run_models, the null distribution, the selectors and the importance loop (PSelect). |
| C99 | At a fixed target and noise level the oblivious tree sampler only climbs and never returns (defect) | SpecObScore.v defines the score on the heap: over the nodes of the tree, the rows held by each decision node and its children (split_gain of SpecScore.v), its depth and the move odds. POblivious4.v and POblivious5.v give the ratios as sums; PObScore.v computes the summands and matches them with the terms that ogrow adds and oprune takes away. That all decision nodes have a finite ratio is an invariant of histories whose grows were accepted (PObScore2.v). Stretches are an inductive relation as for C88; the unbounded stretch comes from C97. |
| C100 | Oblivious trees: recording does not change the run, and sampling can be resumed | MObModel.ob_samples. The change of addresses made by storing is the relation `moved` of PBook; ob_gibbs_step commutes with it (PObRel) and keeps child links allocated (PObBook); loop algebra for resumption. |
| C101 | Normalisation in double precision: range, order and accuracy, overflow and round trip (defects) | MFloat: the expressions of normalize_y and unnormalize_y in IEEE binary64 (Flocq's BinarySingleNaN, round to nearest even). Monotonicity of rounding and relative error bounds (PFloat, PFloat2); examples by computation on concrete doubles. |
| C102 | The running prediction in double precision drifts, boundedly, and is never repaired (defect) | MFloat2: one row of the running prediction in IEEE binary64; np.sum as addition in any order. Invariant: error <= n*B*((1+u)^K - 1), K roundings (PFloat3); exactness on a grid 2^g (PFloat4). |
| C103 | Node sums and point predictions in double precision: accurate in any order of addition, but one non-finite target spoils every node (defect) | np.sum is the inductive relation `sums` (any binary tree over any permutation); relative error by induction over it; NaN absorbs in any order; prediction error by composing the sum, the mean and the affine map with Flocq's rounding lemmas. |
| C104 | The order of the columns is only a labelling | A simulation between the two programs up to an exchange of their index draws (PSim.v): a continuation-passing relation in which every choice between columns is answered by a permutation of the residues of its draw; each model function is shown to commute with renumbering the columns (PPerm.v); counting follows because the exchange is an injection of the finite set of draw tables into itself. |
| C105 | Several chains are several one-chain estimators, averaged; their order does not matter | run_processes is the list of its chains' results; every chain keeps the same number of samples (a function of the settings), so the mean of the concatenated samples is the mean of the chains' means; normalisation is affine and shared. Other backends and heaps by the existing simulation (C68). |
| C106 | The order of the training rows is only a labelling, as long as the test for splittable columns answers alike | SpecRows.v states orders, the split test and what a user sees. PRows.v: permutations as sequences of swaps of neighbours; a transformation of heaps, trees, models, chains and estimators that permutes every row-indexed vector; each model function commutes with it, functions that draw a row commute after a bijection of the index draws (PSim.v). Properties_Rows.v: the two sufficient conditions, the counting version, the counterexample with ties (from C77). |
| C107 | Copies of a column change how often it is drawn and nothing else | PSim2 (draw translations that are onto and keep the number of draws), PCopy (every model function commutes with the return from copies to columns; conditions are rebuilt from the translated list, row selection by fold_selected; the ratio by cancellation of the finite log count), Properties_Copy. The weight by counting index draws below a multiple of the number of splittable columns. |
| C108 | Leaf values drawn in double precision are accurate, shrunk towards zero, and degrade in a known way when sigma leaves the range | MFloat3.v evaluates leafnode.py:26-33 with Flocq's binary64 operations; `** 2` and np.power(., 0.5) are relations bounded by 2^-52 relative error, because the C library's pow is not correctly rounded (C108_draw_exists shows the relations can always be met). SpecDouble3.v states the posterior in exact arithmetic. PFloat6-8.v carry relative error factors (1+2^-52)^k through the formula; C108_exact_model ties the exact value to the model of C32. |
| C109 | The scale of the gamma draw behind sigma is positive, finite and accurate in double precision | gamma_scale_f in MFloat3.v evaluates sigma.py:18-19 with binary64 operations and the any-order sum of MFloat2.v; PFloat9.v bounds the error of the squares, the sum, the halving, the addition and the reciprocal. |
| C110 | With little noise the oblivious sampler adds a level exactly when one of its cuts tells something about the target, even if it is a copy | SpecObNoise.v says when a node tells something about the target. PObNoise.v has the limits for one cut whose sides need not be disjoint: the gain times the variance tends to a rate that is positive if the cut tells something; else the gain falls below every bound; it vanishes for large noise. These add up over a list. PObNoise2.v writes the ratio of a grow and of a prune as such a sum, from C99's lemmas. |
| C111 | The likelihood ratio of a split is accurate in double precision and decides as exact arithmetic would, except that no split is accepted once sigma's square vanishes or overflows (defect) | MFloat4.v evaluates log_grow_ratio in binary64 (Flocq); np.power and np.log are relations with a stated error, np.sqrt is correctly rounded. SpecDouble4.v has the exact ratio, split into the part of the counts and that of the sums, and the size the error is relative to. PFloat10.v bounds each factor and term, PFloat11.v adds them up and treats the comparison, NaN, vanishing and infinite sigma. C111_exact_model links the exact ratio to log_grow_ratio of the exact model. |
| C112 | The whole acceptance ratio is accurate in double precision: the probability of the chosen cut cancels up to rounding, and the decision is the exact one | MFloat5.v evaluates the transition and tree ratios in binary64; np.power and np.log are relations with a stated error. PFloat12.v has a calculus of numbers known up to c units of 2^-53 (sum, difference, logarithm), with a separate bound for log(1 - p), where the error is divided by 1 - alpha. C112_exact_model_grow and _prune state that the exact ratio is that of the exact model, from C36. |
| C113 | The draw of sigma is accurate in double precision and stays in the safe range; one missing residual poisons the fit for ever | MFloat6.v evaluates SigmaSampler.sample in binary64: the gamma draw is the scale times a standard draw, np.power(x, -0.5) a relation with a stated error. PFloat13.v propagates C109's bound through the product and the inverse root. C113_exact_model links the exact value to sigma_step of the exact model. C113_for_ever is an induction over the updates of the maintained sum (MFloat2.v), combined with C108 and C111 for NaN. |
| C114 | A tree's whole turn in double precision, from the rows of the data to the decision and the leaf values, agrees with exact arithmetic | MFloat7.v composes the earlier binary64 definitions into a tree's turn: targets handed over, masked sums, the carried difference, leaf draw, acceptance test. SpecDouble7.v has the exact sums over the rows and the error terms. PFloat14.v bounds the sums (PFloat5-7 for the masked sum, one more subtraction for the carried one) and shows how a change of the sums moves the exact ratio and the error of C112. C114_grow and C114_prune combine this with C112_decision. |
| C115 | The error measures of the scikit-learn class are accurate in double precision; rmse overflows and underflows although its value would fit | MFloat8.v evaluates residuals, l2_error and rmse in binary64 (the root is Flocq's correctly rounded one). PFloat15.v bounds the sum of squares and passes the bound through the root. C115_exact_model says the exact value is what rmse returns in the exact model; C115_predictions is the triangle inequality for the Euclidean norm. |
| C116 | A mutation that is neither a grow nor a prune cannot be scored and is never proposed; applying one rewires the tree without adding a node (defect) | Case analysis on the kind for the ratios; induction on the retry limit and on the comprehension for the proposers; relink_get (PTree.v) describes the relinking loop of mutate. |
| C117 | The acceptance ratio of the oblivious sampler is accurate in double precision; a cut that no row has, NaN and overflow reject the level | MFloat9.v: the ratio of one cut and their sum, over MFloat3–5's operations. Error analysis of C111 and C112 extended to empty sides (counts0), sums by C106's order-free bound; exact side by C63. |
| C118 | Equal split conditions are interchangeable; conditions that differ can be told apart by data, except with infinite values; a NaN condition is not equal to itself | MSplitEq.v models __eq__ and the guard of add_condition. Equality is characterised by the three fields; told apart by rows one below and one above a value; bounds by the order lemmas of LFl. |
| C119 | What SklearnModel() with its default settings does: 80 samples of 200 trees from four chains of 400 steps; predict() without X raises | MEstimator.default_hyper; specialises C43, C44, C50 and C77 to the estimator constructed without arguments. |
| C120 | A tree's turn with the oblivious sampler in double precision decides as exact arithmetic on the rows would; a leaf without rows gets NaN (defect) | MFloat10.v: sums over masks (one function of the mask, in any order) handed to MFloat9's ratio. C114's sum bounds extended to empty nodes (close0, weight_diff0, ratio_shift0), then C117's bound for the level. |
| C121 | Integers, booleans and mixed columns: what fit and make_bartpy_data work on (defect beyond 2^53 and with boolean columns) | MConvert models the dtypes and conversions on top of Flocq's binary64; conversion of an integer is Flocq's rounding; odd integers beyond 2^53 merge because doubles there are even integers and rounding is idempotent. Results are tied to the existing model through the matrix given to Data. |
| C122 | Integer targets: how fit normalises them and what predictions are mapped back to (defect when the range does not fit the integer type) | MIntTarget: integer subtraction reduced modulo 2^w, then Flocq's binary64 for the division; the accuracy follows from the entry lemmas of C101 applied to the rounded differences, the defect from the sign of the wrapped range. |
| C123 | float32 targets: accuracy of the normalisation and of predictions mapped back (defect on overflow) | MSingle is MFloat with Flocq's binary32 format, and the proofs of C101 carry over with the other constants; MSingle2 adds predictions, computed in binary64 with the binary32 range. |
| C124 | Predicting for an X of another dtype than the training data compares the same numbers, except (defect) for integers beyond 2**53 | MPredictType models the combined conditions with split values that are int64, bool or float64 and numpy's promotion in comparisons. It is related to the untyped model of C13 by a simulation; the defect uses the integers that merge when converted (C121). |
| C125 | (defect) Predicting for float32 rows after fitting float64 rows need not send a row where the float64 row went | MPredict32 models numpy's comparison of a float32 array with a float64 scalar before and after version 2 on top of the bounds of MPredictType; float32 rounding is Flocq's binary_normalize. Proved with monotonicity of rounding and exactness of widening (PSingle3). |

## Theorems and their axioms

| id | theorems [axioms] |
|----|----------|
| C01 | C01_offered_column_varies [DF] |
| C02 | C02_offered_exactly [DF], C02_offered_sorted [DF], C02_two_rows_offer_nothing [DF], C02_documented_refuted [DF], C02_row_order_refuted [DF] |
| C03 | C03_caches_invisible [DF], C03_answers_mean [DF] |
| C04 | C04_proportion_of_occurring_value [DF], C04_proportion_of_absent_value [DF], C04_absent_value_refuted [DF] |
| C05 | C05_split_value_separates [DF], C05_exception_iff_not_splittable [DF] |
| C06 | C06_first_non_maximal_draw [DF], C06_some_draw_ends_the_loop [DF] |
| C07 | C07_children_partition_rows [DF], C07_split_node_partition_rows [DF], C07_nan_row_in_both_children_refuted [DF], C07_nan_row_always_in_both [-] |
| C08 | C08_reported_count_exact [DF], C08_counts_add_up [DF], C08_nan_refuted [DF] |
| C09 | C09_sum_exact [DF] |
| C10 | C10_fresh_condition_exact [DF], C10_reused_condition_reports_old_node [D], C10_reuse_refuted [DF] |
| C11 | C11_normalised_range [DF], C11_constant_target_nan [DF] |
| C12 | C12_normalisation_affine [DF], C12_unnormalise_affine [DF], C12_same_failures [DF] |
| C13 | C13_selected_rows_exact [-], C13_conjunction [-], C13_order_irrelevant [-], C13_built_iff_known_variables [-], C13_unclean_row_rejected [-], C13_empty_condition_refuted [-] |
| C14 | C14_in_sample_equals_out_of_sample [DF], C14_reached_nodes_agree [DF], C14_minus_inf_refuted [DF] |
| C15 | C15_most_recent_is_last_added [-], C15_root_has_none [DF] |
| C16 | C16_proper_binary_tree [DF], C16_children_listed [DF], C16_leaf_count [DF] |
| C17 | C17_rows_in_exactly_one_leaf [DF], C17_no_empty_leaf [DF] |
| C18 | C18_walks_down_the_tree [DF], C18_unclean_row_predicts_zero [DF], C18_too_few_columns [DF] |
| C19 | C19_ensemble_rowwise [D], C19_ensemble_concatenation [D], C19_ensemble_pick [D], C19_estimator_rowwise [DF], C19_estimator_concatenation [DF], C19_estimator_pick [DF], C19_tree_rowwise [D] |
| C20 | C20_grow_then_prune_restores [DF], C20_predictions [DF] |
| C21 | C21_mutation_is_local [DF] |
| C22 | C22_prunable_nodes [-], C22_only_stumps_unprunable [DF] |
| C23 | C23_prune_mutation_checked [-], C23_grow_mutation_checked [-], C23_proposals_never_rejected [DF] |
| C24 | C24_absent_node_rejected [-], C24_half_done_prune [-], C24_not_atomic_refuted [DF] |
| C25 | C25_current_values [DF], C25_set_value_ignored [D], C25_set_value_refuted [DF] |
| C26 | C26_first_prediction [DF], C26_fails_after_first_grow [DF], C26_wrong_buffer_is_never_repaired [DF] |
| C27 | C27_in_sample_equals_out_of_sample [DF] |
| C28 | C28_update_y [DF] |
| C29 | C29_trees_say [CDFN], C29_running_prediction [CDFN], C29_gibbs_targets [CDFN], C29_pass_targets [CDFN] |
| C30 | C30_abandoned_step [CDFN], C30_abandoned_pass [CDFN], C30_forever [CDFN], C30_targets [CDFN], C30_drift_exists [CDFN], C30_refuted [CDFN] |
| C31 | C31_predicts_zero [DF], C31_no_target [DF] |
| C32 | C32_leaf_draw [CDFN], C32_posterior_unique [CDFN] |
| C33 | C33_sigma_draw [CDFN], C33_in_step [CDFN] |
| C34 | C34_opposite [CDFN], C34_opposite_sampled [CDFN] |
| C35 | C35_should_be [CDFN], C35_exact [CDFN], C35_exact_grow [CDFN], C35_exact_prune [CDFN], C35_bias [CDFN], C35_integrated_when_one [CDFN], C35_integrated_when_one_tree [CDFN], C35_integrated_refuted [CDFN] |
| C36 | C36_grow [CDFN], C36_prune [CDFN], C36_round_trip [CDFN], C36_opposite_refuted [CDFN] |
| C37 | C37_rule [CDFN], C37_effect [CDFN], C37_metropolis_refuted [CDFN] |
| C38 | C38_no_prune [CDFN], C38_frozen [CDFN] |
| C39 | C39_proposals_legal [DF] |
| C40 | C40_no_move_never_returns [D], C40_two_row_training_sets [DF], C40_some_draw_returns [DF] |
| C41 | C41_visits [CDFN], C41_no_cut [CDFN] |
| C42 | C42_late_binding [CDFN] |
| C43 | C43_infinite [CDFN], C43_count [CDFN], C43_one_in_k [CDFN], C43_zero [CDFN], C43_fraction_refuted [CDFN] |
| C44 | C44_aligned [CDFN], C44_counts [CDFN] |
| C45 | C45_rates [CDFN], C45_rates_in_unit_interval [CDFN] |
| C46 | C46_stored_samples_never_change [CDFN], C46_sampling_run [CDFN] |
| C47 | C47_linked [CDFN], C47_refuted [CDFN] |
| C48 | C48_order [-], C48_each_once [-], C48_empty_cache [-] |
| C49 | C49_predict_is_predict_train [CDFN], C49_fit_predict [CDFN] |
| C50 | C50_mean_of_samples [CDFN], C50_chain_order [CDFN], C50_count [CDFN], C50_one_in_k [CDFN] |
| C51 | C51_affine [CDFN], C51_reflected [CDFN], C51_degenerate [CDFN] |
| C52 | C52_fitted [CDFN], C52_never_fitted [DF] |
| C53 | C53_residuals [DF], C53_defined [DF], C53_squares [DF], C53_rmse_is_sum [DFN], C53_training_residuals [CDFN], C53_root_mean_square_refuted [CDFN] |
| C54 | C54_unnormalized_residuals [CDFN], C54_without_normalisation [CDFN] |
| C55 | C55_models_hold_previous_samples [DF], C55_run_models [CDFN], C55_first_model_unusable [CDFN], C55_own_samples_refuted [CDFN] |
| C56 | C56_groups [-], C56_chain_of_group [-], C56_no_chains [DF] |
| C57 | C57_never_readable [-] |
| C58 | C58_unfitted [DF], C58_predict_adds [CDFN], C58_error_is_tree_error [CDFN], C58_residuals_subtract_base_twice [CDFN], C58_ols [CDFN], C58_residuals_refuted [CDFN] |
| C59 | C59_samples_are_trees [CDFN], C59_used_columns [DF], C59_given_columns [DF], C59_sum [DF], C59_not_the_share [DF], C59_unfitted [DF] |
| C60 | C60_is_kept [DF], C60_kept_features [DF], C60_partition [DF], C60_missing_threshold [DF] |
| C61 | C61_cutoff [DF], C61_most_are_above [DF], C61_local_thresholds [DF], C61_documented_share_refuted [DF], C61_global_fails [-], C61_out_of_range [DF], C61_in_range [DF], C61_interpolation [DF], C61_share [DF], C61_ends [DF], C61_monotone [DF] |
| C62 | C62_import [DF], C62_sklearn_prediction_unique [-], C62_in_sample [DF], C62_first_prediction [DF], C62_other_objects [DF], C62_single_node [D], C62_single_node_refuted [DF], C62_model [DF] |
| C63 | C63_perfect [CDFN], C63_covered [CDFN], C63_same_or_disjoint [CDFN], C63_partition_iff [CDFN], C63_step [CDFN], C63_accepted_grow [CDFN], C63_grow_ratio [CDFN], C63_prune_ratio [CDFN], C63_unsplittable_root [CDFN], C63_empty_prune [CDFN], C63_predict_last_leaf [CDFN], C63_predict_out_agrees [CDFN], C63_partition_refuted [CDFN], C63_oblivious_refuted [CDFN] |
| C64 | C64_tasks [D], C64_scores [CDFN], C64_untrained [CDFN], C64_uneven_folds [CDFN], C64_original_errors [CDFN] |
| C65 | C65_models [CDFN], C65_estimators [CDFN] |
| C66 | C66_refused [CDFN], C66_constant_fit_stuck [CDFN], C66_step_failures [CDFN], C66_samples_failures [CDFN], C66_samples_possible [CDFN], C66_constant_data_stuck [CDFN], C66_fit_possible [CDFN] |
| C69 | C69_initialize_tree_raises [DF], C69_default_initializer_fails [DF], C69_base_initializer [DF] |
| C70 | C70_null_distribution [CDFN], C70_selection [CDFN], C70_roles_swapped [CDFN], C70_unfitted [CDFN], C70_other_methods [CDFN], C70_possible [CDFN], C70_n_trees [DF], C70_trees_per_sample [CDFN] |
| C71 | C71_split_mask [CDFN], C71_null_mask [CDFN], C71_transform [DF], C71_selects_columns_refuted [DF] |
| C67 | C67_monotone_recoding [CDFN], C67_non_strict_refuted [CDFN] |
| C68 | C68_backend [CDFN] |
| C73 | C73_refit [CDFN] |
| C72 | C72_grow [DF], C72_prune [DF], C72_only_possible_methods [D] |
| C74 | C74_grow_probability [DF], C74_prune_probability [DF], C74_chance_unique [DF], C74_code_understates [CDFN] |
| C75 | C75_grow [CDFN], C75_prune [CDFN], C75_hastings_refuted [CDFN] |
| C76 | C76_tree_depth [CDFN], C76_no_trees [CDFN], C76_acceptance [CDFN], C76_acceptance_missing [CDFN], C76_sigma [CDFN], C76_sigma_has_no_units [CDFN], C76_residuals [CDFN], C76_unfitted [DF], C76_diagnostics [CDFN] |
| C77 | C77_criterion [CDFN], C77_first_row_kept [CDFN], C77_row_order_refuted [CDFN] |
| C78 | C78_no_growth [CDFN], C78_single_leaves [CDFN], C78_constant_predictions [CDFN], C78_acceptance_zero [CDFN], C78_otherwise [CDFN], C78_oblivious_no_growth [CDFN], C78_oblivious_single_leaves [CDFN], C78_oblivious_constant_predictions [CDFN], C78_oblivious_acceptance_zero [CDFN] |
| C79 | C79_selection [CDFN], C79_addresses [CDFN], C79_recording [CDFN], C79_fit [CDFN] |
| C80 | C80_burn_in [CDFN], C80_resumed [CDFN], C80_phase_refuted [CDFN] |
| C81 | C81_parameters [-], C81_history [CDFN], C81_params_describe [CDFN], C81_clone [DF], C81_set [-], C81_set_value [-], C81_tree_sampler_ignored [CDFN], C81_never_grows [CDFN], C81_reported_sampler_refuted [CDFN], C81_extension_set [-], C81_extension_clone [DF], C81_extension_clone_refuted [DF] |
| C82 | C82_left_over [-], C82_reproducible [-], C82_seed_ignored [-], C82_reseeding_refuted [-] |
| C83 | C83_unfitted [-], C83_never_returns [CDFN], C83_type_error [CDFN] |
| C84 | C84_isolated [CDFN], C84_default_base [-], C84_shared [CDFN], C84_independent_refuted [CDFN] |
| C85 | C85_grow [CDFN], C85_prune [CDFN], C85_large_noise [CDFN], C85_first_split [CDFN] |
| C86 | C86_trees [CDFN], C86_running_prediction [CDFN], C86_targets [CDFN], C86_drift_exists [CDFN], C86_abandoned_step [CDFN], C86_forever [CDFN], C86_visits [CDFN], C86_no_cut [CDFN], C86_rates [CDFN], C86_predict [CDFN], C86_aligned [CDFN], C86_stored [CDFN], C86_unsplittable_root [CDFN], C86_possible [CDFN] |
| C87 | C87_default_mask [DF], C87_sum [DF], C87_count [DF], C87_splittable [DF], C87_hidden_for_ever [DF], C87_unique [DF], C87_checked_refuted [DF] |
| C88 | C88_grow_ratio [CDFN], C88_prune_ratio [CDFN], C88_all_splittable [DF], C88_climbs [CDFN], C88_never_returns [CDFN], C88_stops [CDFN], C88_no_undo [CDFN] |
| C89 | C89_thin_zero [CDFN], C89_thin_infinite [CDFN], C89_new_rows [CDFN], C89_fit_possible [CDFN], C89_fit_unsplittable [CDFN], C89_predict_is_predict_train [CDFN], C89_mean_of_samples [CDFN], C89_chain_order [CDFN], C89_count [CDFN], C89_no_predictions [CDFN], C89_samples_are_states [CDFN] |
| C90 | C90_result [CDFN], C90_untrained [CDFN], C90_two_even_folds [CDFN], C90_possible [CDFN] |
| C91 | C91_same_side [CDFN], C91_no_extrapolation [CDFN], C91_grid [CDFN], C91_one_column [CDFN] |
| C92 | C92_fitted_trees [CDFN], C92_thresholds [-], C92_constant_column [-], C92_search_tree [-], C92_size [-], C92_stored_size [CDFN] |
| C93 | C93_defined [DF], C93_value [DFN], C93_beats_constants [DFN], C93_same_ranking [DFN], C93_duplicated [DFN], C93_units [CDFN], C93_extension [DF] |
| C94 | C94_affine [CDFN], C94_reflected [CDFN], C94_monotone_recoding [CDFN], C94_backend [CDFN], C94_refit [CDFN] |
| C95 | C95_constant_column [CDFN], C95_constant_column_oblivious [CDFN] |
| C96 | C96_column [DF], C96_probability [CDFN], C96_possible [CDFN] |
| C97 | C97_thresholds [CDFN], C97_same_side [CDFN], C97_no_extrapolation [CDFN], C97_grid [CDFN], C97_regions [CDFN], C97_size_refuted [CDFN] |
| C98 | C98_split_selection [CDFN], C98_null_selection [CDFN], C98_importance [CDFN] |
| C99 | C99_grow_ratio [CDFN], C99_prune_ratio [CDFN], C99_finite [CDFN], C99_climbs [CDFN], C99_never_returns [CDFN], C99_idle [CDFN], C99_stops_refuted [CDFN] |
| C100 | C100_selection [CDFN], C100_addresses [CDFN], C100_recording [CDFN], C100_fit [CDFN], C100_burn_in [CDFN], C100_resumed [CDFN], C100_phase_refuted [CDFN] |
| C101 | C101_normalised [CDFN], C101_order [CDFN], C101_exact_model [CDFN], C101_constant [CDFN], C101_missing [CDFN], C101_overflow [CDFN], C101_round_trip [CDFN], C101_empty [-], C101_round_trip_refuted [CDFN], C101_distinct_refuted [CDFN] |
| C102 | C102_drift [CDFN], C102_handed [CDFN], C102_never_repaired [CDFN], C102_exact_refuted [CDFN], C102_repaired_refuted [CDFN] |
| C103 | C103_node_sum [CDFN], C103_spoilt [CDFN], C103_prediction [CDFN], C103_order_refuted [CDFN] |
| C104 | C104_column_order [CDFN], C104_column_order_oblivious [CDFN], C104_as_likely [CDFN], C104_as_likely_oblivious [CDFN] |
| C105 | C105_chains [CDFN], C105_chains_oblivious [CDFN], C105_in_sample [CDFN], C105_chain_order [CDFN], C105_chain_order_oblivious [CDFN] |
| C106 | C106_row_order [CDFN], C106_row_order_oblivious [CDFN], C106_no_ties [CDFN], C106_paired [CDFN], C106_ties_refuted [CDFN], C106_as_likely [CDFN], C106_as_likely_oblivious [CDFN] |
| C107 | C107_copied_columns [CDFN], C107_copied_columns_oblivious [CDFN], C107_same_reports [CDFN], C107_same_reports_oblivious [CDFN], C107_weight [-], C107_weight_refuted [-] |
| C108 | C108_accurate [CDFN], C108_exact_model [DFN], C108_shrinks [CDFN], C108_no_noise [CDFN], C108_only_noise [CDFN], C108_missing [CDFN], C108_both_vanish [CDFN], C108_draw_exists [CDFN] |
| C109 | C109_scale [CDFN], C109_missing [CDFN], C109_overflow [CDFN] |
| C110 | C110_grow [CDFN], C110_prune [CDFN], C110_copies [CDFN], C110_large_noise [CDFN], C110_large_noise_prune [CDFN] |
| C111 | C111_accurate [CDFN], C111_exact_model [CDFN], C111_decision [CDFN], C111_vanishing_grow [CDFN], C111_vanishing_prune [CDFN], C111_exploding [CDFN], C111_missing [CDFN], C111_value_exists [CDFN], C111_vanishing_refuted [CDFN] |
| C112 | C112_grow [CDFN], C112_prune [CDFN], C112_decision [CDFN], C112_exact_model_grow [CDFN], C112_exact_model_prune [CDFN], C112_one_leaf [CDFN], C112_value_exists [CDFN] |
| C113 | C113_accurate [CDFN], C113_moderate [CDFN], C113_exact_model [DFN], C113_shape [CDFN], C113_reported [CDFN], C113_overflow [CDFN], C113_zero_draw [CDFN], C113_missing [CDFN], C113_for_ever [CDFN], C113_draw_exists [CDFN] |
| C114 | C114_sum [CDFN], C114_right_sum [CDFN], C114_exact_sum [DF], C114_leaf [CDFN], C114_right_leaf [CDFN], C114_row [CDFN], C114_grow [CDFN], C114_prune [CDFN], C114_turn_exists [CDFN] |
| C115 | C115_accurate [CDFN], C115_rows [CDFN], C115_exact_model [DFN], C115_missing [CDFN], C115_overflow [CDFN], C115_vanishing [CDFN], C115_each_row [CDFN], C115_predictions [CDFN], C115_value_exists [CDFN] |
| C116 | C116_not_scored [CDFN], C116_never_proposed [D], C116_never_proposed_oblivious [D], C116_applied [-], C116_left_broken [-] |
| C117 | C117_accurate [CDFN], C117_decision [CDFN], C117_exact_model_grow [CDFN], C117_exact_model_prune [CDFN], C117_exact_cut [CDFN], C117_impossible_cut [CDFN], C117_missing [CDFN], C117_exploding [CDFN], C117_vanishing_grow [CDFN], C117_nothing [CDFN], C117_value_exists [CDFN] |
| C118 | C118_same_rows [-], C118_told_apart [-], C118_told_apart_refuted [-], C118_equivalence [-], C118_nan [-], C118_bounds [-] |
| C119 | C119_stored [CDFN], C119_chains [CDFN], C119_predict [CDFN], C119_prior [CDFN], C119_possible [CDFN] |
| C120 | C120_ratio [CDFN], C120_decision [CDFN], C120_empty_side [CDFN], C120_empty_leaf [CDFN], C120_turn_exists [CDFN] |
| C121 | C121_floats [CDFN], C121_compare [CDFN], C121_order [CDFN], C121_merges [CDFN], C121_fit_keeps [CDFN], C121_fit_mixed [CDFN], C121_same_model [CDFN], C121_told_apart_refuted [CDFN], C121_splittable [-], C121_mixed_bool [CDFN] |
| C122 | C122_normalised [CDFN], C122_order [CDFN], C122_wraps [CDFN], C122_as_floats [CDFN], C122_shift [CDFN], C122_constant [CDFN], C122_back [CDFN], C122_unsigned [CDFN] |
| C123 | C123_normalised [CDFN], C123_order [CDFN], C123_exact_model [CDFN], C123_constant [CDFN], C123_missing [CDFN], C123_overflow [CDFN], C123_round_trip [CDFN], C123_predictions [CDFN], C123_empty [-], C123_round_trip_refuted [CDFN], C123_distinct_refuted [CDFN] |
| C124 | C124_numbers [CDFN], C124_as_floats [CDFN], C124_errors [CDFN], C124_as_floats_refuted [CDFN] |
| C125 | C125_same_numbers [CDFN], C125_narrow [CDFN], C125_left [CDFN], C125_right [CDFN], C125_new [CDFN], C125_new_refuted [CDFN], C125_rows [CDFN] |
