{"id": "C01", "title": "A column offered for splitting really has two different values", "statement": "Whenever CovariateMatrix.splittable_variables() lists a column of a node, two of the node's rows hold different values in that column (NaN-free data).", "quantifier": "every covariate matrix, every mask, every column, every state of the node's caches reachable from a root by splits and queries", "why_tests_cant": "The answer may come from a cache inherited through an arbitrary chain of splits; tests try a handful of matrices with fresh caches.", "anchors": ["bartpy/data.py: is_not_constant, CovariateMatrix.splittable_variables"]}
{"id": "C02", "title": "Exactly which columns are offered for splitting (defect: first row is ignored)", "statement": "For NaN-free data a column is offered for splitting if and only if the node's rows other than its first row hold two different values. Consequently the documented reading 'columns that have more than one unique value' is false (a two-row column [1,2] is never splittable), and whether a column is splittable depends on row order.", "quantifier": "every NaN-free series, and the witnesses for the failing documented reading", "why_tests_cant": "The existing test uses one array whose first value repeats, which hides the skipped row.", "anchors": ["bartpy/data.py: is_not_constant"]}
{"id": "C03", "title": "Covariate caches are invisible", "statement": "After any history of splits and queries, splittable_variables(), n_splittable_variables, is_at_least_one_splittable_variable(), is_column_unique() and max_value_of_column() give the answer a fresh, cache-free computation over the node's current rows gives; in particular the 'not splittable' and 'unique' facts inherited from the parent are always still true of the child.", "quantifier": "every NaN-free matrix, every sequence of queries and of <= / > splits in any order, every column", "why_tests_cant": "The number of interleavings of queries and splits is unbounded and stale caches only show along particular ones.", "anchors": ["bartpy/data.py: CovariateMatrix.__init__, splittable_variables, is_column_unique, max_value_of_column, Data.__add__"]}
{"id": "C04", "title": "proportion_of_value_in_variable is the value's relative frequency", "statement": "For a value that occurs in the node's column the result is (rows with that value)/(rows in node), whichever of the two code paths is taken. For a value that does not occur the fast path for all-distinct columns wrongly answers 1/n instead of 0.", "quantifier": "every NaN-free node, column and value; a witness for absent values", "why_tests_cant": "Both branches must agree on all columns; unit tests check three literals.", "anchors": ["bartpy/data.py: proportion_of_value_in_variable, is_column_unique"]}
{"id": "C05", "title": "Sampled split values never create an empty side", "statement": "For a splittable column, any value random_splittable_value returns occurs in the node, is strictly below the node's maximum, and the <= side and the > side both contain at least one of the node's rows; it raises NoSplittableVariableException exactly when the column is not splittable.", "quantifier": "every NaN-free node, every column, every sequence of random draws", "why_tests_cant": "The rejection loop depends on the random stream and on all data shapes; sampling 10000 draws on one column is not all of them.", "anchors": ["bartpy/data.py: random_splittable_value; bartpy/samplers/unconstrainedtree/proposer.py: sample_split_condition"]}
{"id": "C06", "title": "The split-value rejection loop stops as soon as a non-maximal row is drawn", "statement": "On a splittable column the loop returns the first drawn value different from the column maximum, and such a row exists; so only an unending run of maximal draws can keep it running.", "quantifier": "every NaN-free node, every stream of draws", "why_tests_cant": "Termination over all streams cannot be observed by running.", "anchors": ["bartpy/data.py: random_splittable_value"]}
{"id": "C07", "title": "A split sends every row of the node to exactly one child", "statement": "For every split value that is not NaN and NaN-free column, a row of the node is in exactly one of node+(v<=s) and node+(v>s); rows outside the node stay outside both. If a covariate is NaN the row is in both children (defect).", "quantifier": "every mask, matrix, variable, split value and row; witness with NaN", "why_tests_cant": "Must hold for every row of every dataset and threshold incl. ties and infinities.", "anchors": ["bartpy/data.py: CovariateMatrix.update_mask, Data.__add__"]}
{"id": "C08", "title": "Row counts of children, computed or carried, are exact", "statement": "After split_node the two children report as n_obsv exactly the number of training rows they contain, and these add up to the parent's, although the right count is obtained by subtraction. (With NaN covariates the carried count is wrong.)", "quantifier": "every NaN-free node and split, repeated to any depth", "why_tests_cant": "The subtraction shortcut composes over arbitrary depth.", "anchors": ["bartpy/node.py: split_node; bartpy/data.py: Data.__init__"]}
{"id": "C09", "title": "The cached target sum is always the sum over the node's rows", "statement": "After any history of update_y, queries and splits, summed_y() of a node equals the sum of the current target over exactly the node's rows, including for right children whose sum was carried over by subtraction.", "quantifier": "every target vector, every NaN-free matrix, every interleaving of update_y / summed_y / split_node", "why_tests_cant": "A stale or wrongly carried sum appears only under particular orders of update and split.", "anchors": ["bartpy/data.py: Target.summed_y, Target.update_y; bartpy/node.py: split_node"]}
{"id": "C10", "title": "Split condition objects carry state (defect: reuse corrupts counts)", "statement": "Adding a condition that has no carried statistics to a node gives a child with the exact row count and target sum; adding a condition object already used as a right-hand condition by split_node to a different node gives a child that reports the old node's count and sum.", "quantifier": "every node and fresh condition; a witness for the reused one", "why_tests_cant": "Needs a history in which one object is used twice.", "anchors": ["bartpy/splitcondition.py: SplitCondition; bartpy/node.py: split_node; bartpy/data.py: Data.__add__"]}
{"id": "C11", "title": "Target normalisation maps onto [-0.5, 0.5] and back", "statement": "For a non-constant target, normalised values lie in [-0.5,0.5], the minimum maps to -0.5 and the maximum to 0.5, order is preserved, and unnormalize_y(normalised y) is y. For a constant target every normalised value is NaN (defect).", "quantifier": "every non-empty target vector", "why_tests_cant": "Universal over all real vectors.", "anchors": ["bartpy/data.py: Target.normalize_y, Target.unnormalize_y"]}
{"id": "C12", "title": "Normalisation forgets location and scale", "statement": "normalize_y(a*y+b) = normalize_y(y) for a>0, and unnormalising a prediction commutes: unnormalised prediction for a*y+b is a*(that for y)+b.", "quantifier": "every a>0, b, every non-constant target, every prediction vector", "why_tests_cant": "Universal over reals.", "anchors": ["bartpy/data.py: Target.normalize_y, unnormalize_y; bartpy/sklearnmodel.py: predict"]}
{"id": "C13", "title": "A combined condition is the conjunction of its splits", "statement": "CombinedCondition.condition(X) selects a row if and only if the row satisfies every split condition on the path, for rows without NaN and without -inf; the order of conditions is irrelevant. Rows containing NaN or -inf are rejected even by the empty condition, and a condition whose threshold is NaN, which no value satisfies, is ignored (defects).", "quantifier": "every list of conditions (any variable, threshold incl. infinities and NaN, operator), every matrix row", "why_tests_cant": "Interval folding must agree with conjunction for every list of thresholds in every order.", "anchors": ["bartpy/splitcondition.py: CombinedVariableCondition.add_condition, CombinedCondition.condition"]}
{"id": "C14", "title": "In-sample and out-of-sample membership agree", "statement": "For a split obtained from a root by any sequence of conditions, split.condition() (mask on training rows) equals split.condition(X_train) (rule re-evaluated), for training data without NaN and -inf.", "quantifier": "every training matrix, every sequence of conditions with any thresholds", "why_tests_cant": "Two independent representations of the same region must agree along unbounded histories.", "anchors": ["bartpy/split.py: Split.condition, Split.__add__; bartpy/data.py: update_mask"]}
{"id": "C15", "title": "The most recent condition is the last one added", "statement": "most_recent_split_condition() and the splitting variable of a split are those of the last condition added, None for a root.", "quantifier": "every sequence of added conditions", "why_tests_cant": "Any sequence length.", "anchors": ["bartpy/split.py: most_recent_split_condition; bartpy/splitcondition.py: CombinedCondition"]}
{"id": "C16", "title": "Mutated trees stay proper binary trees", "statement": "After any sequence of grow and prune mutations proposed from the tree's current state, tree.nodes lists, without repetition, exactly the nodes of one binary tree reachable through child links; each decision node has two children in the list; #leaves = #decisions + 1; children are one level deeper than their parent.", "quantifier": "every history of grow/prune mutations of any length", "why_tests_cant": "List bookkeeping and pointer relinking must agree after arbitrary histories.", "anchors": ["bartpy/tree.py: mutate, Tree.remove_node, Tree.add_node; bartpy/node.py: split_node"]}
{"id": "C17", "title": "Leaves partition the training rows", "statement": "In every reachable tree each training row belongs to exactly one leaf, and every leaf has at least one row.", "quantifier": "every history of proposed mutations, every NaN-free training matrix with at least one row", "why_tests_cant": "Unbounded histories.", "anchors": ["bartpy/tree.py: mutate; bartpy/samplers/unconstrainedtree/proposer.py"]}
{"id": "C18", "title": "Out-of-sample tree prediction is the value found by walking down the tree", "statement": "For every reachable tree and every new matrix without NaN and -inf, tree.predict(X) gives for each row the value of the leaf reached from the root by following left if value <= threshold, right otherwise.", "quantifier": "every reachable tree, every new matrix", "why_tests_cant": "All trees times all inputs.", "anchors": ["bartpy/tree.py: Tree._out_of_sample_predict"]}
{"id": "C19", "title": "Prediction is row-wise", "statement": "tree.predict(X), model.predict(X) and SklearnModel.predict(X) act row by row: predicting a concatenation (or any reordering/subset) of matrices is the concatenation (reordering/subset) of the predictions - also for rows with NaN or infinities.", "quantifier": "every model, every matrix", "why_tests_cant": "All matrices and batchings.", "anchors": ["bartpy/tree.py: _out_of_sample_predict; bartpy/model.py: _out_of_sample_predict; bartpy/sklearnmodel.py: _out_of_sample_predict"]}
{"id": "C20", "title": "Growing and then pruning the same node restores the tree's structure", "statement": "Pruning the decision node just created by a grow gives back a tree with the same regions; all other leaves keep their values; the restored leaf predicts 0 until it is resampled.", "quantifier": "every reachable tree, every leaf, every split", "why_tests_cant": "All trees and positions.", "anchors": ["bartpy/tree.py: mutate; bartpy/samplers/unconstrainedtree/proposer.py: uniformly_sample_prune_mutation"]}
{"id": "C21", "title": "A mutation touches only the node it names", "statement": "mutate changes no leaf's value, split, depth or data other than replacing the named node, and no node outside the tree other than the named replacement's links.", "quantifier": "every reachable tree and proposed mutation", "why_tests_cant": "Frame properties quantify over everything else.", "anchors": ["bartpy/tree.py: mutate"]}
{"id": "C22", "title": "A non-trivial tree can always be pruned, a trivial one never", "statement": "prunable_decision_nodes is empty exactly when the tree is a single leaf; it lists exactly the decision nodes with two leaf children.", "quantifier": "every reachable tree", "why_tests_cant": "Induction over all trees.", "anchors": ["bartpy/tree.py: prunable_decision_nodes; bartpy/node.py: is_prunable"]}
{"id": "C23", "title": "Mutation objects validate their node kind", "statement": "PruneMutation raises TypeError unless given a decision node with two leaf children; GrowMutation raises TypeError unless given a leaf; proposals made from a tree never raise it.", "quantifier": "every node of every reachable tree", "why_tests_cant": "All nodes of all trees.", "anchors": ["bartpy/mutation.py"]}
{"id": "C24", "title": "mutate is not failure-atomic (defect)", "statement": "If the named node is not in the tree, mutate raises ValueError and leaves the node list unchanged; but if a prune's children are not in the list, the decision node is already gone when ValueError is raised.", "quantifier": "every tree and mutation; witness", "why_tests_cant": "Error paths mid-update.", "anchors": ["bartpy/tree.py: mutate, remove_node"]}
{"id": "C25", "title": "Cached in-sample prediction is never stale in the sampling protocol, but set_value does not invalidate it (defect)", "statement": "For any interleaving of update_y, set_value, mutate and predict(): predict() after at least one update_y or mutate following the last set_value returns each row's current leaf value; predict() right after set_value with a warm cache returns the old values.", "quantifier": "every operation sequence on every reachable tree", "why_tests_cant": "All interleavings.", "anchors": ["bartpy/tree.py: Tree.predict, Tree.update_y; bartpy/node.py: LeafNode.set_value"]}
{"id": "C26", "title": "In-sample prediction of a grown tree that was never predicted before fails (defect)", "statement": "tree.predict() sizes its buffer by the first listed node; on a tree that has not been predicted before, it succeeds iff that first node holds all training rows; after a first grow it does not, and IndexError is raised.", "quantifier": "every reachable tree", "why_tests_cant": "Depends on history of predict calls versus growth.", "anchors": ["bartpy/tree.py: Tree.predict, mutate"]}
{"id": "C27", "title": "tree.predict() equals tree.predict(X_train)", "statement": "With a fresh cache, in-sample prediction equals out-of-sample prediction on the training matrix (no NaN, no -inf).", "quantifier": "every reachable tree", "why_tests_cant": "All trees.", "anchors": ["bartpy/tree.py: Tree.predict, _out_of_sample_predict"]}
{"id": "C28", "title": "update_y reaches every node of its tree and nothing else", "statement": "tree.update_y(y) makes y the target of every node of the tree (sums recomputed), and changes no node of any other tree and no stored sample.", "quantifier": "every reachable model state, every y", "why_tests_cant": "Recursive pointer walk over all shapes; isolation across trees.", "anchors": ["bartpy/tree.py: Tree.update_y; bartpy/node.py: TreeNode.update_y; bartpy/model.py: initialize_trees"]}
{"id": "C29", "title": "Backfitting: each tree is fitted to the residual of all the others", "statement": "Throughout any number of Gibbs passes, when a tree is handed to the samplers its target is y minus the sum of the current predictions of all other trees, and after each pass the running prediction equals the sum of all trees' current predictions (exact arithmetic).", "quantifier": "every history of passes with arbitrary accepted/rejected mutations and leaf draws, any number of trees", "why_tests_cant": "The running total is updated incrementally over unbounded histories.", "anchors": ["bartpy/model.py: refreshed_trees, predict"]}
{"id": "C30", "title": "Interrupting a pass corrupts all later residuals (defect)", "statement": "If a pass is abandoned while tree j is being updated, in every later pass every tree's target is off by exactly the prediction tree j had when the pass was abandoned (that is, after whatever was done to it in that pass), and the running prediction is off by the same amount forever.", "quantifier": "every interruption point, every later history", "why_tests_cant": "Crash points times histories.", "anchors": ["bartpy/model.py: refreshed_trees"]}
{"id": "C31", "title": "A new model predicts zero and its trees hold no target (defect)", "statement": "Model(data, sigma, initializer=None) has n_trees single-leaf trees and predicts 0 on every training row; because initialize_trees passes update_y's None result back into update_y, every tree's target is None (not y/n_trees) until the first Gibbs pass, so summed_y() raises TypeError.", "quantifier": "every data set and n_trees >= 1", "why_tests_cant": "All sizes.", "anchors": ["bartpy/model.py: Model.__init__, initialize_trees"]}
{"id": "C32", "title": "Leaf draws follow the conjugate posterior mean, with a wrong spread (defect)", "statement": "The sampled leaf value is m + z*s with m the conjugate normal posterior mean of the leaf (between 0 and the leaf's mean residual) and s*s = posterior variance / n_trees; so the spread is the conjugate one only for a single tree.", "quantifier": "every leaf with at least one row, sigma>0, k>0, n_trees>=1, every standard-normal draw z", "why_tests_cant": "Formula over all reals.", "anchors": ["bartpy/samplers/leafnode.py: LeafNodeSampler.sample; bartpy/model.py: sigma_m"]}
{"id": "C33", "title": "Sigma draws use the inverse-gamma posterior and stay positive", "statement": "The gamma parameters used are (a + n/2, 1/(b + SSE/2)) with SSE computed from y minus the sum of the trees' current leaf values; they are positive for a,b>0, and sigma = g^(-1/2) > 0 for a positive gamma draw g, i.e. sigma^2 = 1/g.", "quantifier": "every reachable model state, every prior a,b>0, every draw", "why_tests_cant": "All states.", "anchors": ["bartpy/samplers/sigma.py; bartpy/sigma.py"]}
{"id": "C34", "title": "The likelihood ratio of a prune is the inverse of the grow's", "statement": "log_likihood_ratio of undoing a split is minus that of making it; it is finite whenever sigma>0 and sigma_mu>0.", "quantifier": "every node, split, sigma, sigma_mu", "why_tests_cant": "All reals.", "anchors": ["bartpy/samplers/unconstrainedtree/likihoodratio.py: log_grow_ratio, log_likihood_ratio_grow, log_likihood_ratio_prune"]}
{"id": "C35", "title": "The likelihood ratio is not the integrated Gaussian likelihood ratio (defect)", "statement": "log_grow_ratio mixes sigma_mu with sigma_mu^2; it equals the integrated-likelihood ratio of the BART model when sigma_mu = 1, and differs from it for the default sigma_mu of a one-tree model on a concrete split. Exactly: for every proposal on every reachable tree the number it gives is the integrated-likelihood formula in which the two weights sigma_mu^2 of the sums of targets are replaced by sigma_mu. When the targets are all zero it is above the right ratio exactly when sigma_mu < 1 and below exactly when sigma_mu > 1.", "quantifier": "all inputs, all proposals on all reachable trees; witness for the difference", "why_tests_cant": "Formula over reals.", "anchors": ["bartpy/samplers/unconstrainedtree/likihoodratio.py: log_grow_ratio"]}
{"id": "C36", "title": "The probability of the chosen split cancels out of the acceptance ratio", "statement": "log_probability_ratio of a grow equals log(p_prune/p_grow) - log(#prunable+1) + log likelihood ratio + structural prior ratio: neither the variable/value probability nor the number of splittable leaves enters; for a prune it equals log(p_grow/p_prune) - log(#splittable-1) + log(#prunable) - the same two terms. A grow and the prune undoing it therefore do not have opposite log ratios in general (defect).", "quantifier": "every tree, proposal and parameter setting with finite logs", "why_tests_cant": "All reals and trees.", "anchors": ["bartpy/samplers/unconstrainedtree/likihoodratio.py: UniformTreeMutationLikihoodRatio"]}
{"id": "C37", "title": "Acceptance compares a uniform draw with the LOG ratio (defect)", "statement": "A proposal is accepted iff u < log-ratio for the uniform draw u in [0,1): ratios of at most 1 are never accepted, log-ratios of at least 1 always, NaN never; the Metropolis-Hastings rule u < ratio is violated.", "quantifier": "every proposal, every ratio incl. infinities and NaN, every u", "why_tests_cant": "All reals.", "anchors": ["bartpy/samplers/unconstrainedtree/treemutation.py: sample"]}
{"id": "C38", "title": "Trees with fewer than two splittable leaves can never be pruned, with none are frozen (defect)", "statement": "If at most one leaf of a tree is splittable no prune proposal is ever accepted; if none is splittable, the tree's structure never changes again under any further sampling.", "quantifier": "every tree state, every future stream of draws of any length", "why_tests_cant": "Statement about all futures.", "anchors": ["bartpy/samplers/unconstrainedtree/likihoodratio.py: log_prune_transition_ratio; proposer.py; treemutation.py"]}
{"id": "C39", "title": "Every proposal is legal", "statement": "A grow proposal splits a current leaf of the tree on a splittable column at an occurring, non-maximal value giving two non-empty children; a prune proposal names a current decision node with two leaf children and replaces it by a leaf with the same region and depth; proposing changes nothing in the tree.", "quantifier": "every reachable tree, every stream of draws", "why_tests_cant": "All streams.", "anchors": ["bartpy/samplers/unconstrainedtree/proposer.py"]}
{"id": "C40", "title": "Proposing never returns when no move exists (defect)", "statement": "If the tree is a single leaf with no splittable column, propose never returns a mutation for any draws and ends in RecursionError; this includes every training set of at most two rows. If either a splittable leaf or a decision node exists, a suitable method draw makes propose return.", "quantifier": "every such tree, every stream, every recursion limit", "why_tests_cant": "Non-termination cannot be tested.", "anchors": ["bartpy/samplers/unconstrainedtree/proposer.py: UniformMutationProposer.propose"]}
{"id": "C41", "title": "A Gibbs step visits every tree and every post-mutation leaf exactly once", "statement": "Consumed as the sampler does, one step performs for each tree in order one tree update and then one leaf draw for each leaf of the tree as it is after that update, and finally one sigma draw.", "quantifier": "every model state, every accept/reject pattern", "why_tests_cant": "All shapes and accept patterns.", "anchors": ["bartpy/samplers/schedule.py: SampleSchedule.steps; bartpy/samplers/modelsampler.py: step"]}
{"id": "C42", "title": "Scheduled steps must be run as they are produced (defect: late binding)", "statement": "If the steps are first collected and then run, every tree step acts on the last tree and every leaf step on the last leaf yielded.", "quantifier": "every model with at least one tree", "why_tests_cant": "A property of consumption schedules.", "anchors": ["bartpy/samplers/schedule.py: SampleSchedule.steps"]}
{"id": "C43", "title": "Thinning keeps one in k samples, starting with the first", "statement": "With thin = 1/k exactly ceil(n_samples/k) samples are stored, those with index divisible by k; with 1/thin = q/p in lowest terms the kept indices are the multiples of q, so thin=2/3 keeps a third, not two thirds (defect); thin=0 raises ZeroDivisionError after burn-in, and thin=inf raises it at the first step after burn-in (if there is one).", "quantifier": "every n_samples, every positive rational 1/thin", "why_tests_cant": "All sizes and rates.", "anchors": ["bartpy/samplers/modelsampler.py: ModelSampler.samples"]}
{"id": "C44", "title": "The three traces are aligned", "statement": "The numbers of stored models, acceptance records and in-sample predictions (when enabled) are equal, and entry i of each belongs to the same Gibbs step; exactly n_burn + n_samples steps are run.", "quantifier": "every n_burn, n_samples, thin, flags and step behaviour", "why_tests_cant": "All parameters.", "anchors": ["bartpy/samplers/modelsampler.py: ModelSampler.samples; bartpy/trace.py"]}
{"id": "C45", "title": "Acceptance rates are rates", "statement": "The 'Tree' entry of a step's trace is (accepted mutations)/(number of trees) in [0,1]; no other key occurs; with no trees the trace is empty.", "quantifier": "every step", "why_tests_cant": "All outcomes.", "anchors": ["bartpy/samplers/modelsampler.py: ModelSampler.step; bartpy/trace.py: TraceLogger"]}
{"id": "C46", "title": "Stored posterior samples never change", "statement": "The out-of-sample prediction of a stored model sample on any matrix is the same right after storing and after any further sampling.", "quantifier": "every reachable state, every further history, every matrix", "why_tests_cant": "The copy shares node and condition objects with the live tree; only some histories would expose aliasing.", "anchors": ["bartpy/tree.py: deep_copy_tree; bartpy/node.py: deep_copy_node; bartpy/model.py: deep_copy_model"]}
{"id": "C47", "title": "Stored samples stay linked to live nodes (defect)", "statement": "In a stored sample a decision node's children are the live tree's node objects, not the stored copies: the child's value seen through the stored decision node changes when sampling continues, and the training data stays reachable.", "quantifier": "witness history", "why_tests_cant": "Needs a history after the copy.", "anchors": ["bartpy/node.py: deep_copy_node"]}
{"id": "C48", "title": "Scalar samplers hand out every random draw exactly once", "statement": "The values returned by a cached scalar sampler are the drawn batches, each in reverse order, none skipped, repeated or invented; with cache_size 0 sample() raises IndexError.", "quantifier": "every cache size, every source stream, every number of calls", "why_tests_cant": "All call counts.", "anchors": ["bartpy/samplers/scalar.py"]}
{"id": "C49", "title": "predict() equals predict(X_train)", "statement": "After any fit with stored in-sample predictions on data without NaN and -inf, predict() returns exactly predict(X_train) (exact arithmetic).", "quantifier": "every training set, parameters, number of chains, and every stream of random draws", "why_tests_cant": "End-to-end over all runs.", "anchors": ["bartpy/sklearnmodel.py: predict, fit; bartpy/samplers/modelsampler.py; bartpy/model.py"]}
{"id": "C50", "title": "Point predictions are averages of the posterior samples in original units", "statement": "predict(X) is for each row the mean over stored samples of the un-normalised sample prediction, hence lies between the smallest and largest of them; the number of stored samples is n_chains*ceil(n_samples/k) for thin=1/k, in chain order.", "quantifier": "every extract and matrix", "why_tests_cant": "All sizes.", "anchors": ["bartpy/sklearnmodel.py: _combine_chains, predict, _out_of_sample_predict"]}
{"id": "C51", "title": "Predictions are equivariant under affine changes of the target", "statement": "With the same random draws, fitting a+b*y (b>0) ends the same way as fitting y (returns, or raises the same exception), takes the same accept/reject decisions, draws the same sigmas, shows the same tree depths and the same share of splits per column, and turns every prediction v, in-sample or for any matrix, into a+b*v. For b<0 the same holds with the sign of every normal draw reversed. For b=0 no fit succeeds.", "quantifier": "every a,b, data set, settings, number of chains, backend, all random draws, all matrices predicted for", "why_tests_cant": "Relational property of two runs of the whole sampler; tests compare a few fixed runs.", "anchors": ["bartpy/sklearnmodel.py: fit, predict; bartpy/data.py: Target; bartpy/samplers/schedule.py; bartpy/samplers/modelsampler.py; bartpy/samplers/leafnode.py; bartpy/samplers/unconstrainedtree/likihoodratio.py"]}
{"id": "C52", "title": "predict without X needs stored predictions", "statement": "predict() raises ValueError exactly when store_in_sample_predictions is False.", "quantifier": "every fitted model", "why_tests_cant": "Simple decision rule over all configurations.", "anchors": ["bartpy/sklearnmodel.py: predict"]}
{"id": "C53", "title": "Residuals, squared errors and rmse are consistent; rmse is not a mean (defect)", "statement": "residuals(X,y)+predict(X)=y, l2_error is its square, rmse(X,y)^2 is the SUM of squared errors, i.e. sqrt(n) times the root mean squared error.", "quantifier": "every X,y of matching length", "why_tests_cant": "All inputs.", "anchors": ["bartpy/sklearnmodel.py: residuals, l2_error, rmse"]}
{"id": "C54", "title": "unnormalized_residuals is the residual in original units", "statement": "unnormalized_residuals() = (y_max - y_min) * residuals(), and equals original y minus the un-normalised prediction.", "quantifier": "every model and target", "why_tests_cant": "All reals.", "anchors": ["bartpy/model.py: residuals, unnormalized_residuals; bartpy/data.py: Target"]}
{"id": "C55", "title": "run_models returns the wrong samples and overwrites the caller's model (defect)", "statement": "For data sets 1..m, the i-th returned model carries the samples of data set i-1 (the first carries the caller's old samples), and the caller's model ends up carrying the samples of data set m.", "quantifier": "every m>=1, every number of chains, every chain results", "why_tests_cant": "Needs a multi-dataset history.", "anchors": ["bartpy/runner.py: run_models, convert_chains_models; bartpy/sklearnmodel.py: from_extract"]}
{"id": "C56", "title": "Chains are regrouped correctly", "statement": "convert_chains_models hands model i exactly chains i*n_chains..(i+1)*n_chains-1 in order, for n_chains>=1.", "quantifier": "every n_chains, number of data sets", "why_tests_cant": "All sizes.", "anchors": ["bartpy/runner.py: convert_chains_models"]}
{"id": "C57", "title": "prediction_samples can never be read (defect)", "statement": "Reading the prediction_samples property raises RecursionError for every object state.", "quantifier": "every state, every recursion limit", "why_tests_cant": "Non-termination.", "anchors": ["bartpy/sklearnmodel.py: prediction_samples"]}
{"id": "C58", "title": "ResidualBART adds base and tree predictions; its residuals() is wrong (defect)", "statement": "predict(X) = base.predict(X) + BART prediction of the base's residual, so y-predict(X) is the BART error on the residuals; residuals(X) without y subtracts the base prediction twice. Before fit, predict and residuals raise AttributeError.", "quantifier": "every base estimator, X, y", "why_tests_cant": "All estimators.", "anchors": ["bartpy/extensions/baseestimator.py; bartpy/sklearnmodel.py: residuals"]}
{"id": "C59", "title": "Feature split proportions", "statement": "For stored samples of well-formed trees, the proportion reported for a column is 2*(number of splits on it)/(number of nodes of all trees); reported proportions are in [0,1] and sum to (nodes - trees)/nodes, not to 1 (defect); columns never used get 0 when asked for and are absent otherwise.", "quantifier": "every list of stored samples", "why_tests_cant": "All shapes.", "anchors": ["bartpy/diagnostics/features.py: feature_split_proportions"]}
{"id": "C60", "title": "Feature selection keeps exactly the features above their threshold", "statement": "kept_features lists, in increasing order, exactly the features whose proportion exceeds its threshold; partition_into_passed_and_failed_features splits the features into disjoint, exhaustive parts; a feature without threshold raises KeyError.", "quantifier": "every mapping", "why_tests_cant": "All mappings.", "anchors": ["bartpy/diagnostics/features.py: is_kept, kept_features, partition_into_passed_and_failed_features"]}
{"id": "C61", "title": "Null-distribution cutoff is misread as a percentage (defect)", "statement": "local_thresholds(dist, p) takes p as a percentage: values outside 0..100 raise ValueError, all others are answered. The threshold for a percentage p is the linear interpolation between neighbouring order statistics of the n null values: fewer than p% of n-1, plus one, lie below it and fewer than (100-p)% of n-1, plus one, above it; 0 and 100 give the smallest and the largest, and it does not decrease as p grows. With p in [0,1] as documented and up to 100 permutations the threshold lies between the smallest and second smallest null value, so p=0.95 does not bound the share of null values above the threshold by 5%.", "quantifier": "every null distribution of 2..100 values, every p in [0,1]", "why_tests_cant": "All distributions.", "anchors": ["bartpy/diagnostics/features.py: local_thresholds"]}
{"id": "C62", "title": "Importing an sklearn tree preserves its predictions", "statement": "After map_sklearn_tree_into_bartpy on a single-leaf tree, for every matrix without NaN and -inf tree.predict(X) equals the sklearn tree's prediction (descending by <= threshold), provided the sklearn tree has at least one split; for a single-node sklearn tree the prediction stays the old leaf value (defect). The in-sample prediction agrees with sklearn's on every training row when the tree had been asked for a prediction before the import; otherwise the first prediction is either right or an IndexError. An ensemble whose trees are all imported predicts the sum of the sklearn predictions.", "quantifier": "every sklearn tree structure, every matrix, every history of the tree before the import", "why_tests_cant": "All trees and inputs.", "anchors": ["bartpy/initializers/sklearntreeinitializer.py: map_sklearn_tree_into_bartpy", "bartpy/model.py: Model.__init__"]}
{"id": "C63", "title": "Oblivious trees: perfect shape, but leaves can share rows (defect)", "statement": "For every tree reached from one leaf by the oblivious sampler's proposals, accepted or rejected, its steps, new leaf values, new targets and predictions: the tree is a perfect binary tree (all leaves at one depth k, 2^k leaves); every training row is in some leaf and every leaf holds a row; two leaves that share a row hold exactly the same rows and neither can be split; the leaves partition the rows exactly when every decision node could be split. A step splits every leaf, or prunes every prunable node, or changes nothing. predict() gives a row the value of the last leaf in the leaf list that holds it, and predict(X) on the training matrix agrees. When every leaf is splittable, or was made by a <= condition, or has rows that all differ in the column of its last condition, the acceptance ratio of a grow is finite and has a closed form; every accepted grow is of this kind. A grow on an unsplittable root raises AttributeError and a prune of a one-leaf tree is never accepted. The intended readings fail: two accepted steps can leave a row in two leaves, and decision nodes of one level can test different columns.", "quantifier": "every data set without NaN, every history of the sampler, every parameter setting and every draw", "why_tests_cant": "All histories and all draws.", "anchors": ["bartpy/samplers/oblivioustrees/proposer.py: grow_mutations, prune_mutations, sample_split_node", "bartpy/samplers/oblivioustrees/treemutation.py: sample, step", "bartpy/samplers/oblivioustrees/likihoodratio.py", "bartpy/tree.py: predict, mutate"]}
{"id": "C64", "title": "Permutation null data alters one column only, but is scored on the wrong rows (defect)", "statement": "null_rmse_distribution permutes only the named column and leaves the caller's X unchanged, but the 'test' covariates paired with test targets are the training rows, scored with the samples of the run before. original_model_rmse in contrast reports, per fold, the error on the fold's test rows of an estimator with the caller's settings fitted to the fold's training rows, whatever happened in earlier folds.", "quantifier": "every X, index split, permutation", "why_tests_cant": "All folds.", "anchors": ["bartpy/features/featureimportance.py: null_rmse_distribution"]}
{"id": "C65", "title": "A row with a missing or -inf covariate is predicted as 0 by every tree (defect)", "statement": "For every ensemble reached by sampling and every matrix, a row that holds NaN or -inf in any column gets the prediction 0 (the centre of the normalised target range), whatever the other columns are; +inf is treated as a large value.", "quantifier": "every reachable model, every row", "why_tests_cant": "All rows and all trees.", "anchors": ["bartpy/splitcondition.py: CombinedCondition.condition; bartpy/tree.py: predict; bartpy/model.py: predict"]}
{"id": "C66", "title": "A Gibbs step can fail only by exhausting the recursion limit, and always can succeed if a covariate varies", "statement": "With positive k, sigma_a, sigma_b and move probabilities, at least one tree (alpha and beta arbitrary), a positive starting sigma, non-empty NaN-free covariates and positive gamma draws, ModelSampler.step and samples, started from any state the sampler can reach, return, keep waiting for draws, or raise RecursionError - nothing else. If some covariate varies among the training rows other than the first, then from every such state some draws complete any requested number of steps; if none does, no draws complete even one step (defect).", "quantifier": "every state reached by any history of steps, abandoned steps, predictions and storing; every stream of draws", "why_tests_cant": "Absence of crashes over all histories and draws.", "anchors": ["bartpy/samplers/modelsampler.py: step, samples; bartpy/samplers/unconstrainedtree/*; bartpy/samplers/leafnode.py, sigma.py"]}
{"id": "C69", "title": "Model's default initializer makes construction fail (defect)", "statement": "SklearnTreeInitializer.initialize_tree raises AttributeError for every tree, before fitting anything; since it is the default initializer of Model, Model(data, sigma) raises AttributeError whenever there is at least one tree. With the base Initializer the construction succeeds and the new model predicts 0 for every row.", "quantifier": "every data set, hyperparameters and tree", "why_tests_cant": "All data sets and trees.", "anchors": ["bartpy/initializers/sklearntreeinitializer.py: initialize_tree", "bartpy/initializers/initializer.py: Initializer", "bartpy/model.py: Model.__init__"]}
{"id": "C70", "title": "SelectNullDistributionThreshold swaps real and permuted runs (defect)", "statement": "null_feature_split_proportions_distribution reports, for every column, the proportions of the samples the model held BEFORE the call followed by those of all permuted runs but the last; afterwards the model holds the samples of the last permuted run. SelectNullDistributionThreshold.fit therefore compares the proportions of the last permuted run with cutoffs computed from the real fit and the other permuted runs; with a single permutation the cutoff of a column is its proportion in the real fit. On an unfitted model the distribution is never returned; method='global' never returns and any other method raises AttributeError instead of NotImplementedError. If n_trees is given, the samples of the real fit consist of that many trees, and no other setting of the model changes.", "quantifier": "every data set, every list of permutations, every stream of draws", "why_tests_cant": "All runs: the mix-up involves every combination of chains and permutations.", "anchors": ["bartpy/diagnostics/features.py: null_feature_split_proportions_distribution", "bartpy/features/featureselection.py: SelectNullDistributionThreshold", "bartpy/runner.py: run_models"]}
{"id": "C71", "title": "Support masks cover only the columns that were used (defect)", "statement": "After fit, the support mask of SelectSplitProportionThreshold (and of SelectNullDistributionThreshold) has one entry per column used by some split of the samples it looks at, in increasing order of the columns, not one per column of X. transform(X) therefore keeps exactly the columns above their cutoff only if every column is used; otherwise it raises ValueError, or drops all columns when no mask entry is True.", "quantifier": "every data set, every fit, every matrix", "why_tests_cant": "All sets of used columns.", "anchors": ["bartpy/features/featureselection.py: SelectSplitProportionThreshold, SelectNullDistributionThreshold"]}
{"id": "C67", "title": "Only the order of the covariate values matters", "statement": "Recoding the finite values of every column by a strictly increasing function (a different one per column), in the training matrix and in every matrix predicted for, changes nothing: with the same draws the fit ends the same way, takes the same decisions, draws the same sigmas, shows the same tree depths and the same share of splits per column and makes the same predictions. Non-decreasing is not enough.", "quantifier": "every strictly increasing recoding, data set (NaN and infinities included), settings, draws", "why_tests_cant": "Relational property of two runs of the whole sampler, over all monotone transformations.", "anchors": ["bartpy/splitcondition.py: SplitCondition.carve_out; bartpy/data.py: CovariateMatrix.proportion_of_value_in_variable, random_splittable_value, is_column_unique; bartpy/sklearnmodel.py: fit, predict"]}
{"id": "C68", "title": "Where the chains run does not matter", "statement": "Given the same draws for each chain, chains run in worker processes and chains run one after the other in the calling process give estimators with the same predictions (in and out of sample), acceptance traces, sigmas, tree depths and shares of splits per column, and fail in the same way.", "quantifier": "every data set, settings, number of chains, draws", "why_tests_cant": "In one process the chains share an estimator object and a memory, in workers they do not; equality must hold for all runs.", "anchors": ["bartpy/sklearnmodel.py: f_delayed_chains, f_chains, run_chain, fit, _combine_chains"]}
{"id": "C73", "title": "Fitting again starts afresh", "statement": "An estimator that was already fitted, to any data, behaves on its next fit like a newly constructed one with the same settings: same outcome, predictions, acceptance traces, sigmas, tree depths and shares of splits per column given the same draws, whatever else lives in memory.", "quantifier": "every pair of data sets, settings, draws", "why_tests_cant": "History independence over all earlier fits.", "anchors": ["bartpy/sklearnmodel.py: fit, _construct_model, _combine_chains"]}
{"id": "C72", "title": "Every legal move, and no other, can be proposed", "statement": "For every tree the sampler can reach, the grows it can propose are exactly: split a leaf in a column offered for that leaf, at a value one of the leaf's rows has, with another row of the leaf above it; the prunes are exactly those of the decision nodes whose two children are leaves. If no node can be pruned every proposal is a grow, and if no leaf can be split every proposal is a prune, whatever the configured probabilities.", "quantifier": "every data set without NaN covariates, every reachable tree, every leaf, column and value", "why_tests_cant": "All trees and all draws: a sampler that can never propose some legal move does not explore the posterior, and no finite set of runs shows that.", "anchors": ["bartpy/samplers/unconstrainedtree/proposer.py: UniformMutationProposer, sample_split_condition, random_splittable_leaf_node, random_prunable_decision_node", "bartpy/data.py: CovariateMatrix.random_splittable_value"]}
{"id": "C74", "title": "Probability of a proposed move, and the value the code uses for it (defect)", "statement": "Given uniform index draws, a legal grow (leaf, column, value) is proposed with probability 1/(splittable leaves) * 1/(offered columns) * (rows of the leaf with the value)/(rows of the leaf below its maximum in the column); a prune with probability 1/(prunable nodes). The probability the sampler uses in its acceptance ratio for a grow divides by ALL rows of the leaf instead, so it is strictly smaller than the probability of the move, by the share of rows below the maximum.", "quantifier": "every data set without NaN covariates, reachable tree and legal move", "why_tests_cant": "A statement about limiting frequencies over all streams of draws, for all trees.", "anchors": ["bartpy/samplers/unconstrainedtree/likihoodratio.py: log_probability_split_within_tree, log_probability_split_within_node", "bartpy/data.py: CovariateMatrix.random_splittable_value, proportion_of_value_in_variable", "bartpy/samplers/unconstrainedtree/proposer.py"]}
{"id": "C75", "title": "Transition ratios are not Hastings ratios (defect)", "statement": "The transition ratio of a grow exceeds the log of the Hastings ratio (method probability times exact probability of the move, backwards over forwards) by log(n'/(n+1)) + log(rows of the leaf / rows below its maximum), n and n' the numbers of prunable nodes before and after the grow; n' is n+1, or n if the sibling of the split leaf is a leaf. For a prune (at least two splittable leaves) the excess is log(m'/(m-1)) minus the same row term, m and m' the numbers of splittable leaves before and after; m' = m-1 only if both removed children were splittable.", "quantifier": "every data set without NaN covariates, reachable tree, proposed move and settings with positive grow and prune probabilities", "why_tests_cant": "Relates two probabilities in the tree before and after the move, for all trees.", "anchors": ["bartpy/samplers/unconstrainedtree/likihoodratio.py: log_grow_transition_ratio, log_prune_transition_ratio", "bartpy/samplers/unconstrainedtree/proposer.py"]}
{"id": "C76", "title": "What the diagnostic plots show", "statement": "After a fit: plot_tree_depth shows for every stored sample 0 (roots are counted), the mean distance of all nodes from their roots, and the height of the highest tree; plot_tree_mutation_acceptance_rate one share of changed trees per stored sample, between 0 and 1; plot_qq and plot_homoskedasity_diagnostics the residuals y - predict(X) of the training rows; plot_sigma_convergence the positive sampled sigmas, on the normalised scale, so it is the same curve whatever the units of y (the value in units of y is the plotted one times the range of y). With no trees or before a fit the plots raise; otherwise plot_diagnostics has everything it needs.", "quantifier": "every data set without NaN covariates, every fit, every settings and draws", "why_tests_cant": "The numbers depend on the sampled trees of a whole run; equalities must hold for all of them.", "anchors": ["bartpy/diagnostics/trees.py: plot_tree_depth", "bartpy/diagnostics/sigma.py: plot_sigma_convergence", "bartpy/diagnostics/sampling.py: plot_tree_mutation_acceptance_rate", "bartpy/diagnostics/residuals.py: plot_qq, plot_homoskedasity_diagnostics", "bartpy/sigma.py: Sigma"]}
{"id": "C77", "title": "Whether training data can be fitted depends on which row comes first (defect)", "statement": "For NaN-free training rows with at least two different targets, SklearnModel.fit can succeed exactly if some column takes two different values on the rows after the first one. Hence reordering the rows after the first never matters, but exchanging the first row with another can turn data that can be fitted into data that never can (every attempt ends in RecursionError), although the fit of a regression model should not depend on the order of the training rows.", "quantifier": "every training set and every reordering of it, every estimator that asks for at least one step, all draws", "why_tests_cant": "That no draws at all complete a fit is a statement about every random stream; a test sees only some of them.", "anchors": ["bartpy/data.py CovariateMatrix.n_splittable_variables / is_column_unique", "bartpy/sklearnmodel.py SklearnModel.fit", "bartpy/samplers/unconstrainedtree/proposer.py"]}
{"id": "C78", "title": "With some settings trees never grow, silently (defect)", "statement": "The tree prior splits a node at depth d with probability alpha*(1+d)^(-beta). SklearnModel and the tree samplers accept any alpha, beta, p_grow and p_prune. If alpha is not in (0, 1], or alpha/2^beta >= 1 (the children of the root would always split), or p_prune = 0, the log acceptance ratio of every proposed split of a single leaf is not a number or -infinity, no such split is ever accepted whatever the data and the draws, the fit still succeeds, all trees of all samples are single leaves, the acceptance trace is zero throughout, and the prediction is the same for every row. The same holds of the oblivious tree sampler (draws of uniform being nonnegative). For the usual sampler these are the only such settings: with all others (k, p_grow and p_prune positive, at least one tree) every proposed first split whose two sides have different mean targets is accepted, whatever the draw, once the noise level is small enough.", "quantifier": "every alpha, beta, p_grow, p_prune, all other hyperparameters, all training data, all draws, all steps", "why_tests_cant": "That nothing is ever accepted ranges over all draws and unboundedly many steps.", "anchors": ["bartpy/samplers/unconstrainedtree/likihoodratio.py log_probability_node_split / log_probability_node_not_split, log_grow_transition_ratio", "bartpy/samplers/oblivioustrees/likihoodratio.py", "bartpy/sklearnmodel.py SklearnModel.__init__"]}
{"id": "C79", "title": "Recording does not change the run: thinning and the store flags only select what is kept", "statement": "ModelSampler.samples(model, n, n_burn, thin, store_in_sample_predictions, store_acceptance) goes through the same states with the same draws whatever thin and the two flags are, although predicting and copying the model write to its caches and allocate objects in between. With 1/thin = q/d in lowest terms, the k-th kept sample equals (sigma, every node's conditions, value and depth, and the prediction for every matrix) sample n_burn + k*q of the run of n_burn + n steps without burn-in that keeps everything; the same holds for the acceptance trace and the in-sample predictions when asked for, and these lists are empty otherwise. It fails exactly when the full run fails, with the same error. Two estimators that differ only in the flags, fitted to the same data with the same draws, predict the same for every matrix and have the same sigmas.", "quantifier": "all training data without NaN, all hyperparameters, all reachable models, all n, n_burn, all thin > 0, all flags, all draws", "why_tests_cant": "Compares two runs of unbounded length for every sequence of draws; in between, recording mutates caches and allocates.", "anchors": ["bartpy/samplers/modelsampler.py ModelSampler.samples", "bartpy/trace.py TraceLogger", "bartpy/tree.py deep_copy_tree", "bartpy/model.py Model.predict", "bartpy/sklearnmodel.py SklearnModel.fit"]}
{"id": "C80", "title": "Sampling can be resumed, but the thinning phase restarts", "statement": "Calling samples again on the model object it worked on continues the chain: burn-in may be split over two calls, and when the first call makes a number of steps that is a multiple of 1/thin, two calls return together exactly what one call with the total number of steps returns. If the number of steps is not a multiple, the second call keeps its first step regardless (the phase of the thinning restarts), so two calls may keep more samples than one.", "quantifier": "every model, all numbers of steps, all thin > 0, all flags, all draws", "why_tests_cant": "An equation between programs for all step counts and draws.", "anchors": ["bartpy/samplers/modelsampler.py ModelSampler.samples"]}
{"id": "C81", "title": "Parameters of an estimator: get_params, set_params and clone describe what fit will do, except for the tree sampler (defect)", "statement": "After any history of set_params, fits, failed fits and clone, get_params of a SklearnModel reports the values set last, and the next fit behaves (outcome, predictions, acceptance trace, sigmas) like the fit of a new SklearnModel constructed with those values, except that the tree sampler is the one of the last constructor call: set_params(tree_sampler=...) is reported by get_params and ignored by fit. clone gives an unfitted estimator with the same parameters. For ResidualBART and OLS, set_params of any SklearnModel argument raises ValueError, and clone (used by scikit-learn's cross-validation) silently returns to the default settings. A tree sampler with growing probability 0 can fit nothing.", "quantifier": "every sequence of settings, fits, failed fits and clones; every training set, all draws, every n_jobs except 0, every number of processors", "why_tests_cant": "Histories are unbounded, and that a setting is ignored by all later fits ranges over all data and draws.", "anchors": ["bartpy/sklearnmodel.py: SklearnModel.__init__, fit", "bartpy/extensions/baseestimator.py: ResidualBART.__init__", "bartpy/extensions/ols.py: OLS.__init__", "bartpy/samplers/unconstrainedtree/treemutation.py: get_tree_sampler"]}
{"id": "C82", "title": "np.random.seed does not make runs in one process reproducible (defect)", "statement": "The scalar samplers draw in batches and keep the unused rest; seeding NumPy does not empty these caches, and the uniform, normal and method samplers are shared by all estimators of the process. Seeding makes what follows reproducible, whatever ran before, if every sampler had been asked a multiple of its cache size (in a new process in particular). Otherwise as many of the next numbers as are left over (cache size minus calls modulo cache size) are the same for every seed: they were drawn before the seed was set.", "quantifier": "every generator, every interleaving of sample(), direct draws and seeding, every cache size, every number of samplers", "why_tests_cant": "Ranges over all histories of the process; with the cache sizes 1000 and 60000 the effect depends on how often the samplers were used before.", "anchors": ["bartpy/samplers/scalar.py: UniformScalarSampler, NormalScalarSampler, DiscreteSampler", "bartpy/samplers/leafnode.py: LeafNodeSampler.__init__", "bartpy/samplers/unconstrainedtree/treemutation.py: UnconstrainedTreeMutationSampler.__init__", "bartpy/samplers/unconstrainedtree/proposer.py: UniformMutationProposer.__init__", "bartpy/sklearnmodel.py: SklearnModel.__init__"]}
{"id": "C83", "title": "ResidualBART and OLS cannot predict for the training data without X (defect)", "statement": "After a fit with at least one tree, predict() without X of ResidualBART or OLS never returns: it hands its internal data object to the base estimator and to the trees, and every tree raises TypeError on it (if at least one sample was stored and the base estimator accepted the object). SklearnModel.predict() returns the in-sample predictions.", "quantifier": "every training set without NaN, every fit, every behaviour of the base estimator", "why_tests_cant": "For all base estimators, data and draws.", "anchors": ["bartpy/extensions/baseestimator.py: ResidualBART.predict", "bartpy/extensions/ols.py: OLS.predict", "bartpy/tree.py: Tree.out_of_sample_predict"]}
{"id": "C84", "title": "ResidualBART trains the caller's base estimator: two of them can interfere (defect)", "statement": "ResidualBART clones the base estimator it is given but then uses the caller's object. Fitting a ResidualBART changes the predictions of no other one whose base estimator is a different object (in particular if none was given); but all ResidualBARTs constructed with the same object, fitted earlier, from then on predict with the base model learnt last.", "quantifier": "every base learner, every number of estimators and fits, all data and draws", "why_tests_cant": "Interference depends on the order of fits of several objects; the statement is for all of them.", "anchors": ["bartpy/extensions/baseestimator.py: ResidualBART.__init__, fit, predict"]}
{"id": "C85", "title": "The noise level decides what the tree sampler accepts", "statement": "Consider any proposal in any reachable tree. Once sigma is small enough, a proposed split is accepted whatever the uniform draw if the mean targets of its two sides differ and rejected whatever the draw if they are equal; undoing a split is the other way round (with at least two splittable leaves). Once sigma is large enough, the targets do not matter: the log ratio of a split is as close as wanted to a number given by the parameters, the depth and the number of prunable nodes; with the default alpha and beta and equal chances of grows and prunes the first split of a tree is then accepted whatever the draw, even for pure noise.", "quantifier": "every training set without NaN, every reachable tree, every proposal and draw, every noise level below (above) a bound", "why_tests_cant": "A statement about limits, for all trees and data.", "anchors": ["bartpy/samplers/unconstrainedtree/likihoodratio.py: log_grow_ratio, log_likihood_ratio", "bartpy/samplers/unconstrainedtree/treemutation.py: UnconstrainedTreeMutationSampler.step", "bartpy/samplers/treemutation.py: TreeMutationLikihoodRatio.log_probability_ratio"]}
{"id": "C86", "title": "Sampling an ensemble of oblivious trees", "statement": "Give the model the tree sampler of bartpy/samplers/oblivioustrees instead of the ordinary one and drive it by Gibbs steps, in-sample predictions, stored copies and abandoned steps in any order. The number of trees never changes, all trees stay perfect and share no node; after completed steps the running prediction is the sum of all trees, the tree being updated fits the data minus all other trees, and a step abandoned while a tree is open shifts every later target by that tree's prediction, for good. A completed step visits every tree once and then each of its current leaves once, then sigma; it reports the share of trees that changed. predict() is the sum of the trees and equals predict(X) on the training matrix when its rows hold neither NaN nor -inf. samples() keeps exactly the burn-in and thinning positions, stored models never change later, and reports and predictions belong to the same steps. A grow proposed for a one-leaf first tree raises AttributeError when no column varies among the rows other than the first, and yet from one-leaf trees every sampling request can complete, on any data.", "quantifier": "every training set without NaN, every reachable state, every sequence of calls, all draws whose uniforms are not negative", "why_tests_cant": "Only an induction over all histories reaches every state of the running prediction, the trees and the stored copies.", "anchors": ["bartpy/samplers/oblivioustrees/treemutation.py: ObliviousTreeMutationSampler.step, get_tree_sampler", "bartpy/samplers/modelsampler.py: ModelSampler.step, ModelSampler.samples", "bartpy/samplers/schedule.py: SampleSchedule.steps", "bartpy/model.py: Model.refreshed_trees, Model.predict, deep_copy_model"]}
{"id": "C87", "title": "Facts given to Data are believed, not checked (defect)", "statement": "Data(X, y, mask, normalize, unique_columns, splittable_variables, y_sum, n_obsv): the mask alone decides which rows belong to the object, and no mask is the same as a mask that hides nothing. A y_sum passed in is reported as the sum of the target, right or wrong, until update_y replaces the target, and from then on the sum is recomputed over the unmasked rows; without it the sum is always that of the unmasked rows. An n_obsv passed in is reported for ever, also after update_y; without it the count is that of the unmasked rows. A column marked False in splittable_variables is never offered for a split, in the object or in any object split off it, while all other columns (also those marked True) are looked up in the rows. A column marked True in unique_columns is reported unique; every other column counts as unique exactly when it has as many different values as the reported number of rows, so a wrong n_obsv gives wrong answers there too and wrong proportions. Nothing is compared with the rows: all of it can be wrong at once.", "quantifier": "every matrix and target of matching lengths, every mask, every combination of given and omitted facts, every history of calls", "why_tests_cant": "The facts are read through caches that later calls fill, invalidate and hand to children; tests see one combination and one history.", "anchors": ["bartpy/data.py: Data.__init__, Target.__init__, Target.summed_y, Target.update_y, CovariateMatrix.__init__, CovariateMatrix.splittable_variables, CovariateMatrix.is_column_unique, CovariateMatrix.proportion_of_value_in_variable"]}
{"id": "C88", "title": "At a fixed target and noise level the tree sampler only climbs, never returns and stops (defect)", "statement": "A Metropolis-Hastings sampler must be able to go back: every move it accepts it must sometimes undo. TreeMutationSampler.step does not. Give every tree a score: over its splits, the code's log likelihood gain of the split, its log prior odds and log(p_prune/p_grow). The log ratio of a grow is the change of the score less log(prunable nodes + 1), that of a prune is the change of the score less log(splittable leaves - 1) plus log(prunable nodes), and a move is accepted only if its log ratio exceeds the uniform draw (C37). So, while the target, sigma and the parameters stay the same: two accepted moves of opposite kinds in a row never lead back to the same splits; and over any number of steps in which every accepted prune starts from a tree with more splittable leaves than prunable nodes (always so when every leaf can be split) the score rises with every accepted move, splits that were left are never visited again, and the number of accepted moves is bounded by a number that depends on the covariates alone, after which every proposal is rejected.", "quantifier": "every training set without NaN, every tree reached through the sampler, all parameters 0 < alpha < 1, beta >= 0, k > 0, positive p_grow and p_prune, every sigma > 0, all draws that are not negative, any number of steps, with any calls in between that leave tree and target alone", "why_tests_cant": "That a chain never comes back and stops moving is a statement about all runs of all lengths; a test sees a few runs and cannot tell a rare return from an impossible one.", "anchors": ["bartpy/samplers/unconstrainedtree/treemutation.py: UnconstrainedTreeMutationSampler.step, sample", "bartpy/samplers/unconstrainedtree/likihoodratio.py: UniformTreeMutationLikihoodRatio.log_probability_ratio, log_grow_ratio"]}
{"id": "C89", "title": "Fitting an estimator with the oblivious tree sampler", "statement": "Give SklearnModel the tree sampler of bartpy/samplers/oblivioustrees. After every successful fit, predict(X) is the mean over the stored samples, in the units of the target; predict() gives the same numbers as predict(training X), or raises ValueError if predictions were not stored; the samples are those of the chains one after the other, each chain a run of the sampler on its own draws, and their number is n_chains times the number of kept steps. Every stored sample predicts what the ensemble predicted in some state of the sampler: for a row without NaN and -inf the sum over the trees of the value of the last leaf, in leaf order, whose conditions the row satisfies (it exists and is unique), and 0 for any other row. Unlike the ordinary fit (C66), this one can be completed when no covariate varies, but on such data every fit whose first draw asks for a grow raises AttributeError.", "quantifier": "every training set without NaN, every estimator configuration, both ways of running the chains, all draws whose uniforms are not negative, every new matrix with at least the training columns", "why_tests_cant": "For all data, trees and histories of all chains.", "anchors": ["bartpy/samplers/oblivioustrees/treemutation.py: get_tree_sampler", "bartpy/sklearnmodel.py: SklearnModel.fit, SklearnModel.predict, run_chain", "bartpy/tree.py: Tree.out_of_sample_predict", "bartpy/samplers/modelsampler.py: ModelSampler.samples"]}
{"id": "C90", "title": "feature_importance returns only for two equal halves and a model already trained (defect)", "statement": "feature_importance(model, X, y, variable, n_k_fold_splits, n_permutations): whenever it returns, the first list holds, per fold of a shuffled KFold, the error on the fold's test rows of an estimator with the caller's settings fitted to its training rows. The second list holds one number per fold and permutation, but each compares the fold's test targets with predictions for its training rows (with only the named column permuted), made from the samples of the run before (the first: from those the caller's model already held). So it never returns for an untrained model, though the documentation says training is not needed; and if every test part has two rows or more it returns only when n_k_fold_splits is 2 and the number of rows is even. In that case, with a trained model and training parts that can be fitted, some draws make it return.", "quantifier": "every model configuration, every NaN-free X, target and column, every outcome of the shuffles, permutations and draws, any number of folds and permutations", "why_tests_cant": "All shuffles and draws; that a call never returns cannot be observed.", "anchors": ["bartpy/features/featureimportance.py: feature_importance, original_model_rmse, null_rmse_distribution", "bartpy/runner.py: run_models"]}
{"id": "C91", "title": "Predictions are flat beyond and between the training values", "statement": "After a fit, predict on new rows depends on each covariate only through the training values of that column it exceeds. Two clean matrices (no NaN, no -inf) whose rows agree, column by column, on which training values (the column's largest excepted) they do not exceed get the same predictions. In particular moving every value into the range of its training column changes nothing: there is no extrapolation, rows beyond the range are predicted as rows at its end. Every new row is predicted as some row all of whose values are training values of their columns; with one covariate, as one of the training rows.", "quantifier": "every training set without NaN, every estimator configuration, both ways of running the chains, all draws, every pair of clean new matrices", "why_tests_cant": "For all data, all fits and all new rows; a test compares a few rows of one fit.", "anchors": ["bartpy/sklearnmodel.py: SklearnModel.fit, SklearnModel.predict", "bartpy/samplers/unconstrainedtree/proposer.py: uniformly_sample_grow_mutation, sample_split_condition", "bartpy/data.py: CovariateMatrix.random_splittable_value", "bartpy/tree.py: Tree.out_of_sample_predict"]}
{"id": "C92", "title": "Fitted trees only cut where the data are, and are no bigger than the data", "statement": "In every tree of every stored sample of a fit: each threshold is the value that some training row at that node has in the split's column, and another training row of that node exceeds it, so constant columns are never split; every leaf holds a training row. Hence below a split no cut of the same column is repeated: thresholds are smaller on the left and larger on the right. With N different training rows a tree has at most N leaves, at most 2N-1 nodes and no node deeper than N-1, however long the chain runs.", "quantifier": "every training set without NaN, every estimator configuration, both ways of running the chains, all draws", "why_tests_cant": "A bound over all steps of all chains on all data needs an invariant.", "anchors": ["bartpy/samplers/unconstrainedtree/proposer.py: uniformly_sample_grow_mutation, uniformly_sample_prune_mutation", "bartpy/data.py: CovariateMatrix.random_splittable_value, random_splittable_variable", "bartpy/tree.py: Tree.nodes", "bartpy/sklearnmodel.py: SklearnModel.model_samples"]}
{"id": "C93", "title": "The inherited score is R squared: it ranks as rmse does, and ignores the units and duplicated rows", "statement": "score(X, y) of an estimator (inherited from scikit-learn's RegressorMixin) fails as predict(X) fails, raises ValueError if predict(X) and y have different lengths, and is nan exactly if y has fewer than two entries. Otherwise it is at most 1, and 1 exactly when predict(X) is y; if y is not constant it is 1 - rmse(X, y)^2 / (sum of squared deviations of y from its mean), positive exactly when predict(X) has a smaller squared error than every constant; if y is constant it is 1 or 0. So of two estimators on the same rows one has the larger score exactly when it has the smaller rmse. An estimator fitted to the same data in other units of the target (y -> a + b y, b > 0, same draws) has the same score in the new units, and b times the rmse. Scoring every row twice leaves the score as it is but multiplies rmse, which is not divided by the number of rows, by sqrt 2. The score of the extension that adds BART to another estimator is that of the sum of the two predictions.", "quantifier": "all estimators, all rows and targets to score, all changes of units, all draws", "why_tests_cant": "Inequalities over all real vectors, and a relation between two fits.", "anchors": ["bartpy/sklearnmodel.py: SklearnModel, predict, rmse", "bartpy/extensions/baseestimator.py: ResidualBART"]}
{"id": "C94", "title": "Estimators fitted with the oblivious tree sampler follow changes of units, ignore recodings, and forget earlier fits", "statement": "With the tree sampler of bartpy.samplers.oblivioustrees in place of the default one and the same draws: fitting a + b*y (b > 0) instead of y ends the same way (returns, or raises the same exception), takes the same decisions, draws the same sigmas, shows the same tree depths and shares of splits per column, and every prediction v becomes a + b*v; for b < 0 the same holds with the normal draws negated. Recoding the finite values of each covariate by a strictly increasing function, in training and in prediction, changes nothing. Worker processes and the calling process give estimators that predict the same. An estimator that completed any number of earlier fits, to any data and with either tree sampler, behaves on its next fit, with either sampler, like a new one with the same settings.", "quantifier": "all data, settings, draws, changes of units, strictly increasing recodings, histories of earlier fits, both ways of running the chains", "why_tests_cant": "A relation between two whole runs of the sampler, for all data and draws.", "anchors": ["bartpy/samplers/oblivioustrees/treemutation.py: get_tree_sampler, UnconstrainedTreeMutationSampler", "bartpy/samplers/oblivioustrees/proposer.py", "bartpy/samplers/oblivioustrees/likihoodratio.py", "bartpy/sklearnmodel.py: SklearnModel.fit, predict"]}
{"id": "C95", "title": "A constant column changes nothing", "statement": "Put one more column into a training matrix X (with at least one column) at any position, with all entries equal (finite or infinite, not NaN; the entry of the first row may be anything). With the same draws the fit ends the same way (returns, or raises the same exception), takes the same accept/reject decisions, draws the same sigmas, shows the same tree depths, never splits on the new column while every other column keeps its share of the splits, predicts the same in-sample, and predicts every new matrix as before whatever ordinary numbers (not NaN, not -inf) the new rows have in that column. The same holds with the oblivious tree sampler.", "quantifier": "all matrices, targets, settings, positions and values of the additional column, draws, both ways of running the chains, both tree samplers, all new rows", "why_tests_cant": "A relation between two whole runs of the sampler, for all data and draws.", "anchors": ["bartpy/data.py: CovariateMatrix.splittable_variables, is_not_constant, proportion_of_value_in_variable", "bartpy/sklearnmodel.py: SklearnModel.fit, predict", "bartpy/split.py: CombinedCondition", "bartpy/samplers/unconstrainedtree/proposer.py", "bartpy/samplers/oblivioustrees/proposer.py"]}
{"id": "C96", "title": "What the oblivious sampler proposes when it grows, and how often", "statement": "When the oblivious tree sampler proposes a grow, every leaf that can be split is cut, independently of the others: in a column drawn uniformly among the columns offered by that leaf (drawing fails exactly if none is offered), at the value of a row of the leaf drawn uniformly among the rows whose value in the column is not the largest. So the chance of a given choice of cuts is the product, over the leaves that can be split, of 1/(number of columns offered) times (rows of the leaf with that value)/(rows of the leaf below the column's largest value). A choice of cuts can be proposed exactly if each of them is allowed in its leaf, and then this product is positive.", "quantifier": "every training set without NaN, every history of the oblivious sampler on one tree, every choice of one cut per leaf", "why_tests_cant": "A probability is a statement about all draws; a test samples some of them.", "anchors": ["bartpy/samplers/oblivioustrees/proposer.py: grow_mutations, sample_split_node, sample_split_condition", "bartpy/data.py: CovariateMatrix.random_splittable_variable, random_splittable_value"]}
{"id": "C97", "title": "Oblivious fits are flat between and beyond the training values; their trees can outgrow the data (defect)", "statement": "With the oblivious tree sampler: every leaf is described by rules whose thresholds are training values of their columns that another training value exceeds. Two clean matrices (no NaN, no -inf) whose rows agree, column by column, on which training values (the largest excepted) they do not exceed get the same predictions from a fitted estimator: nothing is extrapolated, and every new row is predicted as some row of training values. The leaves of a tree stand for no more different sets of training rows than there are different training rows. But leaves that cannot be split are duplicated by accepted grows, so the trees themselves are not bounded by the data (defect): on three rows, for every target, every noise level and every tree prior, there are move probabilities and draws with which k steps build a tree with 2^k leaves, for every k.", "quantifier": "every training set without NaN, every estimator configuration, both ways of running the chains, all draws whose uniforms are not negative, every pair of clean new matrices; every depth k", "why_tests_cant": "For all data, all fits, all new rows and all depths; a test compares a few rows of one fit.", "anchors": ["bartpy/samplers/oblivioustrees/proposer.py: sample_split_node", "bartpy/samplers/oblivioustrees/treemutation.py: UnconstrainedTreeMutationSampler", "bartpy/sklearnmodel.py: SklearnModel.fit, SklearnModel.predict", "bartpy/tree.py: Tree.out_of_sample_predict"]}
{"id": "C98", "title": "Feature selection and feature importance do not depend on units or coding", "statement": "Rewrite the training target in other units, a + b*y with b not 0, and the values of each covariate by a strictly increasing function, and use the same random draws (with the normal draws negated if b < 0). Then the two feature selectors end the same way (return, or raise the same exception) and select the same columns with the same proportions and thresholds, and the feature importance computation ends the same way and reports the same errors multiplied by |b|, so that every ratio and every order of importances is the same.", "quantifier": "all data, units, strictly increasing recodings, estimator settings, both ways of running the chains, numbers of permuted runs and permutations, all draws", "why_tests_cant": "A relation between whole families of fits, for all data and draws.", "anchors": ["bartpy/diagnostics/features.py: feature_split_proportions, null_feature_split_proportions_distribution", "bartpy/features/featureselection.py: SelectSplitProportionThreshold, SelectNullDistributionThreshold", "bartpy/features/featureimportance.py: feature_importance", "bartpy/runner.py: run_models", "bartpy/sklearnmodel.py: SklearnModel.fit, predict"]}
{"id": "C99", "title": "At a fixed target and noise level the oblivious tree sampler only climbs and never returns (defect)", "statement": "A Metropolis-Hastings sampler must be able to undo every move it accepts. The oblivious tree sampler does not. Give every tree a score: over its decision nodes, the code's log likelihood gain of dividing the node's rows as its children do, the log prior odds of a split at its depth and log(p_prune/p_grow). If the leaves to be split (the nodes to be pruned) have ratios that are numbers, the log ratio of a proposal is exactly the change of the score, and this is so for every prunable node of a tree all of whose grows were accepted by the sampler. A proposal is accepted only if its log ratio exceeds the uniform draw, so while target, sigma and parameters stay the same the score rises with every accepted move, over any number of steps, and a way of dividing the rows level by level that was left is never taken up again. Unlike for the usual sampler (C88) the training data alone do not bound the number of moves: on three rows, for every target, noise and prior and every k, there are move probabilities with which at least k moves are accepted in a row.", "quantifier": "every training set without NaN, every tree reached through the oblivious sampler, all parameters 0 < alpha < 1, beta >= 0, k > 0, positive p_grow and p_prune, every sigma > 0, all draws that are not negative, any number of steps, with any calls in between that leave tree and target alone", "why_tests_cant": "That a chain never comes back is a statement about all runs of all lengths; a test sees a few runs and cannot tell a rare return from an impossible one.", "anchors": ["bartpy/samplers/oblivioustrees/treemutation.py: sample, step", "bartpy/samplers/oblivioustrees/likihoodratio.py", "bartpy/samplers/oblivioustrees/proposer.py"]}
{"id": "C100", "title": "Oblivious trees: recording does not change the run, and sampling can be resumed", "statement": "C79 and C80 hold for models sampled with the tree sampler of bartpy/samplers/oblivioustrees (get_tree_sampler): samples(model, n, n_burn, thin, flags) goes through the same states with the same draws whatever thin and the flags are; its k-th kept sample, acceptance report and in-sample prediction are those of step n_burn + k*q (1/thin = q/d in lowest terms) of the run that keeps everything; it fails exactly when that run fails, with the same error. Estimators that differ only in the flags predict the same for every matrix and have the same sigmas. Burn-in may be split over two calls, and so may sampling when the first call makes a multiple of 1/thin steps; otherwise the thinning phase restarts and two calls may keep more than one call.", "quantifier": "all training data without NaN, all hyperparameters, all reachable models, all n, n_burn, thin > 0, flags, all draws with non-negative uniforms", "why_tests_cant": "Compares two runs of unbounded length for every sequence of draws; in between, recording fills caches and allocates objects.", "anchors": ["bartpy/samplers/modelsampler.py ModelSampler.samples", "bartpy/samplers/oblivioustrees/treemutation.py UnconstrainedTreeMutationSampler, get_tree_sampler", "bartpy/model.py Model.predict", "bartpy/model.py deep_copy_model", "bartpy/sklearnmodel.py SklearnModel.fit"]}
{"id": "C101", "title": "Normalisation in double precision: range, order and accuracy, overflow and round trip (defects)", "statement": "With float64 targets, Data(normalize=True) stores for finite, non-constant y whose range y.max()-y.min() is a finite double only finite doubles in [-0.5, 0.5]; the smallest targets become exactly -0.5 and the largest exactly 0.5; the order is kept, and targets further apart than 2^-50 of the range stay apart; every value is within 2^-51 of the exact one (of the exact model used elsewhere). A constant y gives NaN everywhere, one NaN in y gives NaN everywhere, an empty y raises ValueError. Defects: if the range overflows although all targets are finite, every target becomes NaN or exactly -0.5, and the largest NaN; different targets can be merged; unnormalized_y is not always the original y, though its smallest values are, and it is within 2^-49*range + 2^-53*|y| + 2^-1074 when |y| <= 2^1021.", "quantifier": "all arrays of doubles, of any length", "why_tests_cant": "Rounding behaviour for every array of doubles; tests see a few arrays, usually well scaled.", "anchors": ["bartpy/data.py Target.normalize_y", "bartpy/data.py Target.unnormalize_y", "bartpy/data.py Target.normalizing_scale", "bartpy/data.py Target.__init__"]}
{"id": "C102", "title": "The running prediction in double precision drifts, boundedly, and is never repaired (defect)", "statement": "The in-sample prediction that sampling keeps up to date (subtract a tree's old prediction, add its new one) starts as the sum of the trees' predictions. In double precision, with n trees, leaf values up to B and after k tree replacements, it stays finite and within (n+2k)*2^-52*n*B of the exact sum of the current trees, and the target handed to the next tree is within (n+2k+2)*2^-52*n*B + 2^-53*|y| of y minus the exact sum of the other trees. It need not equal that sum: one huge leaf value in the past can leave it off by more than the whole normalised range, and as the code never recomputes it, the difference stays exactly the same for ever while values are added exactly.", "quantifier": "all numbers of trees, leaf values, orders of summation, sequences of tree replacements (up to 2^52 roundings), all rows", "why_tests_cant": "Rounding errors accumulate over unbounded histories; a test sees one short history.", "anchors": ["bartpy/model.py Model.refreshed_trees", "bartpy/model.py Model.predict", "bartpy/tree.py Tree.predict"]}
{"id": "C103", "title": "Node sums and point predictions in double precision: accurate in any order of addition, but one non-finite target spoils every node (defect)", "statement": "In IEEE double precision: the sum of the targets of a node (all n targets are multiplied by 0 or 1 and added, in whatever order numpy adds them) is finite and within n*2^-52 times the sum of the absolute values of the node's targets of the exact sum, as long as these stay below 2^1000 and n below 2^52. The point prediction for a row, computed from S samples of T trees, then averaged and mapped back to the units of the target, differs from the prediction computed in real numbers by at most a small multiple of 2^-53 times the size of the numbers involved, whatever the order of the additions. The order can change the result. Because rows outside a node are multiplied by 0 instead of being left out, one NaN target makes the sum of every node NaN, and an infinite target makes the sum NaN in every node that does NOT contain it.", "quantifier": "every vector of finite doubles, every mask, every order and association of the additions, every number of samples and trees (within the stated bounds); for the defect every vector with a non-finite entry", "why_tests_cant": "the order of additions is numpy's, it depends on the length, the memory layout and the build; a test sees one order on one machine and a few vectors", "anchors": ["bartpy/data.py: Target.summed_y", "bartpy/data.py: Target.unnormalize_y", "bartpy/model.py: Model.predict", "bartpy/sklearnmodel.py: SklearnModel.predict"]}
{"id": "C104", "title": "The order of the columns is only a labelling", "statement": "Fitting on the same columns in another order is the same experiment. For every order of the columns there is a one-to-one exchange of the index draws (those that pick a column are exchanged, every other draw stays, draws uniform below a common multiple of 1..n stay uniform) such that the fit on the reordered matrix with the exchanged draws ends exactly as the fit on the original matrix: the same error or success, the same in-sample predictions, the same predictions for new rows with columns in the same new order, the same acceptance traces, the same sampled sigmas, the same tree depths, and every column's share of the splits under its new number. Hence no event a user can observe becomes more or less likely by reordering the columns: with the other draws given, it happens after exactly as many of the equally likely index draws. The same holds for the oblivious tree sampler.", "quantifier": "every matrix and target, every order of the columns, all settings, both backends, both tree samplers, every sequence of draws, every event about what is seen of the fit", "why_tests_cant": "with the same seed the two fits differ, so a test can only compare distributions, by sampling; equality in distribution for all matrices, orders and events cannot be tested", "anchors": ["bartpy/data.py: CovariateMatrix", "bartpy/samplers/unconstrainedtree/proposer.py: uniformly_sample_grow_mutation", "bartpy/samplers/oblivioustrees/proposer.py", "bartpy/splitcondition.py: CombinedCondition", "bartpy/sklearnmodel.py: SklearnModel.fit, predict", "bartpy/diagnostics/features.py: feature_split_proportions"]}
{"id": "C105", "title": "Several chains are several one-chain estimators, averaged; their order does not matter", "statement": "Fitting with n_chains = k ends exactly as k fits with n_chains = 1 made one after the other with the same draws: if one of them fails, the first failure is the failure of the fit; if none does, the fitted object predicts for every X, entry by entry, the average of what the k one-chain estimators predict (and fails as they do when one of them cannot predict), its sampled sigmas and its acceptance trace are theirs, one after the other, and predict() without X averages as well. So the order in which the chains' draws come changes no prediction and only permutes the samples. The same holds with the oblivious tree sampler.", "quantifier": "every matrix and target, every number of chains, all settings, both backends, both tree samplers, every sequence of draws for each chain, every X to predict", "why_tests_cant": "the draws of different runs cannot be lined up in a test; independence of the chains must hold for all draws and all failures", "anchors": ["bartpy/sklearnmodel.py: run_chain, SklearnModel.fit, SklearnModel._combine_chains, SklearnModel.predict", "bartpy/samplers/modelsampler.py: ModelSampler.samples"]}
{"id": "C106", "title": "The order of the training rows is only a labelling, as long as the test for splittable columns answers alike", "statement": "Fitting SklearnModel (or the model with the oblivious tree sampler) on the same rows, with their targets, in another order is the same experiment, provided that the test for 'there is something to split here', which leaves out the first row of a node, gives the same answers in both orders. To every sequence of draws there is another one, with only the row choices exchanged one to one, after which the fit on the reordered data ends the same way: the in-sample predictions are the same in the new order, and the predictions for new rows, the acceptance traces, the sampled sigmas, the tree depths and the columns' shares of the splits are the same. So, over uniform index draws, every event about what a user sees is exactly as likely. The provision holds for every order when no two rows share a value in any column (missing values count as different), and when every row comes at least twice. With ties it can fail: there is a data set that one order of the rows can fit and another order cannot.", "quantifier": "all training matrices (missing values included) and targets of the same length, all permutations of their rows, all settings, backends, prior heap states, numbers of chains and steps, all sequences of draws, all query matrices, all events", "why_tests_cant": "a test compares a few permutations under a few seeds, and equal seeds give different runs after a permutation, so it cannot tell a relabelling from a change in distribution", "anchors": ["bartpy/data.py: CovariateMatrix.random_splittable_value, is_column_unique, max_value_of_column, proportion_of_value_in_variable, update_mask, splittable_variables; is_not_constant", "bartpy/data.py: Target.normalize_y, summed_y", "bartpy/model.py: Model.predict, residuals, refreshed_trees", "bartpy/sklearnmodel.py: SklearnModel.fit, predict"]}
{"id": "C107", "title": "Copies of a column change how often it is drawn and nothing else", "statement": "If some columns of X are given more than once, to `fit` and to `predict`, then nothing can come out that could not come out with every column given once, and the other way round: to every sequence of random draws there is one that differs only in the results of np.random.choice / np.random.randint, after which the fit without the copies ends the same way (also with the same exception), with the same in-sample predictions, the same predictions for new rows, the same acceptance traces, sampled sigmas and tree depths, and a share of the splits for each column that is the sum of the shares of its copies; and every sequence of draws for the fit without copies is reached in this way. The acceptance ratio does not depend on the number of copies. What does change is the weight: the variable draw is uniform over the splittable columns with the copies counted, so a column with k copies is drawn k times as often as one with one. The same holds with the oblivious tree sampler.", "quantifier": "all matrices X (any size, NaN and infinities included), all lists of column numbers in which every column occurs at least once, targets, settings, chains, backends, heaps and sequences of random draws; all new matrices with the same columns; both tree samplers", "why_tests_cant": "It relates two complete runs on matrices of different widths under an exchange of the random draws; every function from the column draw to the feature shares takes part, and the number of columns enters the transition ratio and the tree prior ratio, where it has to cancel exactly.", "anchors": ["bartpy/data.py: CovariateMatrix.splittable_variables, n_splittable_variables, random_splittable_variable", "bartpy/samplers/unconstrainedtree/likihoodratio.py: log_probability_split_within_node", "bartpy/splitcondition.py: CombinedCondition", "bartpy/sklearnmodel.py: SklearnModel.fit, predict", "bartpy/diagnostics/features.py: feature_split_proportions"]}
{"id": "C108", "title": "Leaf values drawn in double precision are accurate, shrunk towards zero, and degrade in a known way when sigma leaves the range", "statement": "The value drawn for a leaf is computed with float64 numbers. For row and tree counts up to 2^52, sigma and prior spread between 2^-200 and 2^200, a finite sum of targets and a finite normal draw, the result is finite and differs from what exact arithmetic gives for the same numbers (the conjugate posterior mean plus the draw times the root of the posterior variance over the number of trees) by at most 2^-47 of |posterior mean| + |draw| * spread, plus 2^-1071. With a zero normal draw the value lies between 0 and the leaf's mean for every sigma that is not NaN. If sigma is below 2^-538 its square vanishes and the value is exactly the leaf's mean: nothing random is added. If sigma is at least 2^512 or infinite the rows of the leaf no longer matter and the value is a draw from the prior. A NaN sum, sigma or draw gives NaN, and so does a prior spread below 2^-538 together with a sigma below 2^-538.", "quantifier": "all row counts, tree counts, sums, sigmas, prior spreads and normal draws as doubles, and all library square and power results within their stated error", "why_tests_cant": "A test compares a few draws with a formula evaluated in the same arithmetic; it cannot bound the rounding error for all inputs nor show what happens when squares underflow or overflow.", "anchors": ["bartpy/samplers/leafnode.py:LeafNodeSampler.sample", "bartpy/model.py:Model.sigma_m"]}
{"id": "C109", "title": "The scale of the gamma draw behind sigma is positive, finite and accurate in double precision", "statement": "When sigma is drawn, the scale handed to the gamma generator is 1 / (b + half the sum of the squared residuals), computed with float64 numbers and summed in any order. For a prior b between 2^-500 and 2^500, at most 2^48 rows and residuals up to 2^400 in absolute value, it is finite and positive, so the generator never refuses it, and within (rows + 6) * 2^-51, relatively, of exact arithmetic. A NaN residual makes it NaN. If the square of a residual is beyond the largest double (and none is NaN) the scale is exactly 0.", "quantifier": "all priors, all lists of residuals and all orders of summation", "why_tests_cant": "The bound has to hold for every number of rows and every order in which numpy may add them; tests see one order and a few lists.", "anchors": ["bartpy/samplers/sigma.py:SigmaSampler.sample", "bartpy/model.py:Model.residuals"]}
{"id": "C110", "title": "With little noise the oblivious sampler adds a level exactly when one of its cuts tells something about the target, even if it is a copy", "statement": "Take an oblivious tree after any history and a proposal of the sampler all of whose nodes have a finite ratio. A node of the proposed level tells something about the target if its two children divide its rows and have different mean targets, or if both children hold the same rows (the code gives an unsplittable leaf two copies of itself) and the targets of these rows do not add up to 0. There is a noise level below which the step adds the level, whatever the acceptance draw, if at least one node tells something, and below which it rejects it, whatever the draw, if none does. For a prune it is the other way round: rejected if one of the nodes it would take away tells something, accepted if none does. So with little noise a level is added although no leaf can be split, unless the targets of each leaf add up to 0 (a defect: copies change no prediction boundary). With enough noise the targets do not matter: the log ratio is as close as wanted to the number of nodes of the level times a number that depends on the parameters and the depth only.", "quantifier": "every training matrix without NaN, every target, every history of the tree, every proposal with finite ratios, all parameters in their usual ranges, every small or large enough noise and every acceptance draw in [0, 1)", "why_tests_cant": "a claim about limits and about sums over a whole level: a test can only try single noise levels, and the two kinds of cut grow at different rates", "anchors": ["bartpy/samplers/oblivioustrees/likihoodratio.py:UniformTreeMutationLikihoodRatio", "bartpy/samplers/oblivioustrees/proposer.py:sample_split_node", "bartpy/samplers/oblivioustrees/treemutation.py:UnconstrainedTreeMutationSampler.step"]}
{"id": "C111", "title": "The likelihood ratio of a split is accurate in double precision and decides as exact arithmetic would, except that no split is accepted once sigma's square vanishes or overflows (defect)", "statement": "The log likelihood ratio of a proposed split is computed with float64 numbers. If sigma and the prior spread are between 2^-100 and 2^100, the sums of the targets at most 2^100 in absolute value and the row counts at most 2^52, the result is a finite number within 2^-47 times (1 + the size of its parts) of the exact ratio, which is the one used by the exact model. Hence a grow or prune is accepted or rejected as in exact arithmetic unless the draw is within 2^-46 times (that size + the sizes of the two other log ratios) of the exact total. Outside the range this fails: when |sigma| < 2^-538, so that its square is 0, the ratio of every split is NaN or -inf and no split is ever accepted, whatever the targets and the draw, although in exact arithmetic every informative split would be (C85); a prune is then accepted exactly if the computed contribution of the node exceeds those of the two below it. When the square of sigma overflows, or sigma is infinite, the ratio is NaN and no proposal is accepted. The same holds if one of the sums, sigma or the prior spread is NaN.", "quantifier": "all double precision sums, sigma, prior spreads, row counts, draws and other log ratios in the stated ranges; every result numpy's square and logarithm may return within their stated errors", "why_tests_cant": "it is a bound on rounding errors over all doubles, and the failing sigmas are outside of what a test would try", "anchors": ["bartpy/samplers/unconstrainedtree/likihoodratio.py:log_grow_ratio", "bartpy/samplers/oblivioustrees/likihoodratio.py:log_grow_ratio", "bartpy/samplers/treemutation.py:TreeMutationLikihoodRatio.log_probability_ratio", "bartpy/samplers/unconstrainedtree/treemutation.py:UnconstrainedTreeMutationSampler.sample"]}
{"id": "C112", "title": "The whole acceptance ratio is accurate in double precision: the probability of the chosen cut cancels up to rounding, and the decision is the exact one", "statement": "A proposal is accepted if the uniform draw is below the sum of three log ratios (transition, likelihood, tree), each computed with float64 numbers. For settings alpha between 2^-50 and 1 - 2^-40, beta between 0 and 40, grow and prune probabilities between 2^-25 and 1, nodes less deep than 1023, and splits as in C111, the computed sum is finite and within 2^-46 * size + 2^-45 / (1 - alpha) + 2^-36 of the exact ratio of C36, from which the numbers of splittable leaves, columns and equal values have cancelled. Therefore grow and prune decisions are those of the exact model unless the draw is that close to the exact ratio. If the tree has exactly one splittable leaf, a prune is rejected in double precision too, whatever the draw (C38).", "quantifier": "all double precision settings, counts, sums, sigma and draws in the stated ranges, every depth up to 1022, every result numpy's log, power and square may return within their stated errors; for the exact side every reachable tree and every proposal", "why_tests_cant": "a rounding error bound for a sum of a dozen logarithms, for all inputs; terms that cancel exactly on paper do not cancel in floating point", "anchors": ["bartpy/samplers/unconstrainedtree/likihoodratio.py:UniformTreeMutationLikihoodRatio", "bartpy/samplers/unconstrainedtree/likihoodratio.py:log_probability_split_within_node", "bartpy/samplers/unconstrainedtree/likihoodratio.py:log_probability_node_not_split", "bartpy/samplers/treemutation.py:TreeMutationLikihoodRatio.log_probability_ratio", "bartpy/samplers/unconstrainedtree/treemutation.py:UnconstrainedTreeMutationSampler.sample"]}
{"id": "C113", "title": "The draw of sigma is accurate in double precision and stays in the safe range; one missing residual poisons the fit for ever", "statement": "Sigma is drawn as power(gamma draw, -0.5) with float64 numbers, where the gamma draw is a standard draw w times 1 / (b + half the sum of the squared residuals). For a prior b between 2^-500 and 2^500, residuals up to 2^400, at most 2^48 rows and w between 2^-100 and 2^100, sigma is finite, positive and within (rows + 10) * 2^-51, relatively, of sqrt((b + half the sum) / w), which is what the exact model stores. For b between 2^-100 and 2^100, residuals up to 2^40 and w between 2^-50 and 2^60 it is between 2^-100 and 2^100, the range in which the next acceptance ratios are accurate (C111, C112). The shape is within 2^-50 of a + rows / 2, relatively, and the reported sigma within 2^-51 of sigma times the range of the targets. If the square of a residual overflows (none being NaN), or the draw is 0, sigma is +inf. If a residual is NaN, sigma is NaN. Once the maintained sum of the trees is NaN in one row, no later update of any tree repairs it: in that row every tree is handed NaN, every sigma and every leaf value drawn afterwards is NaN, and no proposal is ever accepted again; nothing is raised.", "quantifier": "all double precision priors, residual lists, draws and orders of summation in the stated ranges; all sequences of tree updates after a NaN; every result the C library's pow may return within its stated error", "why_tests_cant": "an error bound for all inputs and orders of summation, and a claim about every continuation of a fit", "anchors": ["bartpy/samplers/sigma.py:SigmaSampler.sample", "bartpy/sigma.py:Sigma.current_unnormalized_value", "bartpy/model.py:Model.refreshed_trees"]}
{"id": "C114", "title": "A tree's whole turn in double precision, from the rows of the data to the decision and the leaf values, agrees with exact arithmetic", "statement": "At its turn a tree gets, for every row, the target minus (the maintained sum minus its own prediction), computed with float64 numbers; the sum over the rows of a node is taken over the whole array times the node's mask, in any order; the sum of the right node of a new split is carried over as a difference. For at most 2^24 rows (N of them) with targets, maintained sums and own predictions of at most M <= 2^40: the sum of a node with k rows is within (N + 1) * k * M * 2^-50 of the exact sum of the exact targets, and the carried sum of the right node within (N + 2) * 2k * M * 2^-50, k being the rows of the node that was split. The drawn leaf value is within (N + 33) * 2^-50 * M, plus 2^-47 of the noise term, plus 2^-1071, of the exact draw; for the right leaf of a new split N + 1 is replaced by (N + 2) * 2k / (rows of that leaf). The maintained sum follows the new leaf value up to 2^-50 * M. A grow, or a prune that is not of the only splittable node, is accepted exactly if exact arithmetic on the rows accepts it with the same draw, unless the draw is closer to the exact log ratio than the error of C112 plus 2^-45 * (N + 2) * k * M^2 * sigma_m / sigma^2. There is always a decision and always a leaf value.", "quantifier": "all row lists, masks, orders of summation, settings, sigmas and draws in the stated ranges; every result the C library's log and pow may return within their stated error", "why_tests_cant": "an error bound for all data, all orders of summation and all library roundings at once", "anchors": ["bartpy/model.py:Model.refreshed_trees", "bartpy/tree.py:Tree.update_y", "bartpy/data.py:Target.summed_y", "bartpy/node.py:split_node", "bartpy/samplers/leafnode.py:LeafNodeSampler.sample", "bartpy/samplers/unconstrainedtree/treemutation.py:UnconstrainedTreeMutationSampler.sample", "bartpy/samplers/unconstrainedtree/likihoodratio.py:UniformTreeMutationLikihoodRatio.log_probability_ratio"]}
{"id": "C115", "title": "The error measures of the scikit-learn class are accurate in double precision; rmse overflows and underflows although its value would fit", "statement": "For float64 targets and predictions of at most 2^398 and at most 2^48 rows: each residual is within 2^-53 (relatively) of the exact difference, each entry of l2_error within 2^-51 (relatively) plus 2^-1075 of its square, and rmse is finite, not negative and within (rows + 4) * 2^-52, relatively, plus 2^-512 of the root of the sum of the squared differences, whatever order np.sum adds in. If the predictions are off by up to d each, rmse is off by at most a further 3 d sqrt(rows). No row is off by more than (1 + 2^-50) rmse + 2^-536. If one target or prediction is NaN, rmse is NaN. If all are finite and one difference is 2^512 or more, rmse is +inf although the true value is a double; if all differences are at most 2^-539, rmse is 0 although predictions are wrong.", "quantifier": "all lists of double precision targets and predictions in the stated ranges and all orders of summation", "why_tests_cant": "an error bound for all inputs and orders of summation", "anchors": ["bartpy/sklearnmodel.py:SklearnModel.residuals", "bartpy/sklearnmodel.py:SklearnModel.l2_error", "bartpy/sklearnmodel.py:SklearnModel.rmse"]}
{"id": "C116", "title": "A mutation that is neither a grow nor a prune cannot be scored and is never proposed; applying one rewires the tree without adding a node (defect)", "statement": "TreeMutation accepts any string as its kind. For a kind other than grow and prune the log ratio of either sampler raises NotImplementedError: the transition ratio does, and on its own the tree ratio returns None, which cannot be added (TypeError). Neither proposer ever proposes such a mutation; all proposals of one call of the oblivious proposer are of the same kind. tree.mutate does not check the kind: it raises nothing, keeps the list of nodes and drops the cached prediction, and every listed node that had the old node as a child gets the new one instead. If the new node is not listed, the tree is left with a child that is not one of its nodes.", "quantifier": "all trees, node heaps, parameters, draws and mutations of another kind", "why_tests_cant": "a statement about every tree and every sequence of draws", "anchors": ["bartpy/mutation.py:TreeMutation", "bartpy/tree.py:mutate", "bartpy/samplers/unconstrainedtree/likihoodratio.py:UniformTreeMutationLikihoodRatio.log_transition_ratio", "bartpy/samplers/oblivioustrees/likihoodratio.py:UniformTreeMutationLikihoodRatio.log_transition_ratio", "bartpy/samplers/unconstrainedtree/proposer.py:UniformMutationProposer.propose", "bartpy/samplers/oblivioustrees/proposer.py:UniformMutationProposer.propose"]}
{"id": "C117", "title": "The acceptance ratio of the oblivious sampler is accurate in double precision; a cut that no row has, NaN and overflow reject the level", "statement": "For usual settings, at most 2^52 rows, sums of at most 2^100 and moderate sigma and leaf scale, the log acceptance ratio of adding or removing a whole level, as computed with C library powers and logarithms that are within a stated error and with the ratios of the nodes added in any order, is finite and within a stated sum of error bounds of the exact ratio, in which the probabilities of the cuts cancel; this also holds for nodes with an empty side. The decision is then that of exact arithmetic unless the draw is within the error of the exact ratio. The exact ratio is that of the exact model for every tree that can be reached. If in one node no row has the value of the cut, if a sum, sigma or the leaf scale is NaN, or if the square of sigma overflows (and one node has rows on both sides), the ratio is NaN and the level is neither added nor removed. If the square of sigma underflows to 0 no level is added. Proposing nothing has the ratio 0.", "quantifier": "all settings, levels, cuts and sums of double precision numbers in the stated ranges, all orders of summation and all library powers and logarithms within the stated error", "why_tests_cant": "an error bound for all inputs and orders of summation", "anchors": ["bartpy/samplers/oblivioustrees/likihoodratio.py:UniformTreeMutationLikihoodRatio.log_transition_ratio", "bartpy/samplers/oblivioustrees/likihoodratio.py:UniformTreeMutationLikihoodRatio.log_tree_ratio", "bartpy/samplers/oblivioustrees/likihoodratio.py:UniformTreeMutationLikihoodRatio.log_likihood_ratio", "bartpy/samplers/oblivioustrees/treemutation.py:UnconstrainedTreeMutationSampler"]}
{"id": "C118", "title": "Equal split conditions are interchangeable; conditions that differ can be told apart by data, except with infinite values; a NaN condition is not equal to itself", "statement": "Two split conditions are equal if they have the same column, value and comparison; the sums and counts they carry are ignored. Equal conditions hold for the same rows, exclude the same rows from a node, and replacing one by the other in a combined condition changes neither whether it can be built nor which rows of any matrix it selects. Conversely, conditions with finite values that hold for the same rows of finite numbers are equal; with an infinite value this is not so. Equality is an equivalence among conditions whose value is not NaN; one whose value is NaN is equal to none, not even to itself. The bounds of one column ignore a condition on another column; a condition on it narrows them to exactly the values for which it holds, and adding an equal one again changes nothing.", "quantifier": "all split conditions, combined conditions, matrices, rows and bounds", "why_tests_cant": "a statement about all conditions and all matrices", "anchors": ["bartpy/splitcondition.py:SplitCondition.__eq__", "bartpy/splitcondition.py:CombinedVariableCondition.add_condition", "bartpy/splitcondition.py:CombinedCondition"]}
{"id": "C119", "title": "What SklearnModel() with its default settings does: 80 samples of 200 trees from four chains of 400 steps; predict() without X raises", "statement": "A successful fit of SklearnModel() runs four chains from new models with 200 trees, each of 400 Gibbs steps, of which the steps 200, 210, ..., 390 are stored: 80 samples of 200 trees altogether. Neither in-sample predictions nor acceptance rates are stored, so predict() without X raises ValueError; predict(X) is the mean over the 80 samples in the units of the target. The prior splits a node at depth d with probability 0.95/(1+d)^2, growing and pruning are proposed with probability 1/2 each, and the leaf values of the 200 trees together have prior variance 1/16 on the normalised scale. Such a fit can succeed exactly on data with a column that is not constant on the rows after the first.", "quantifier": "all training data without NaN in the covariates, all draws, all numbers of processors", "why_tests_cant": "what is stored must hold for every data set and every random stream; a test sees one of them and would take minutes per run", "anchors": ["bartpy/sklearnmodel.py:SklearnModel.__init__", "bartpy/sklearnmodel.py:SklearnModel.fit", "bartpy/sklearnmodel.py:SklearnModel.predict", "bartpy/samplers/modelsampler.py:ModelSampler.samples"]}
{"id": "C120", "title": "A tree's turn with the oblivious sampler in double precision decides as exact arithmetic on the rows would; a leaf without rows gets NaN (defect)", "statement": "For usual rows (at most 2^24, targets, maintained sums and own predictions at most M <= 2^40), usual settings and moderate sigma and leaf scale, the log acceptance ratio of adding or removing a level, computed from the rows by summing the targets in any order, carrying the right sums over as differences and adding the ratios of the nodes in any order, is finite and within a stated bound of the ratio of exact arithmetic on the rows; so the level is added or removed exactly if exact arithmetic would do so, unless the draw is within that bound of the exact ratio. This includes nodes one side of which is empty (its sum is then exactly 0, although it is a difference of two rounded sums) and nodes that cannot be split, whose rows are copied to both sides. The value drawn for a leaf without rows is NaN.", "quantifier": "all rows, levels, masks, settings and draws in the stated ranges and all orders of summation", "why_tests_cant": "an error bound for all data sets and orders of summation", "anchors": ["bartpy/samplers/oblivioustrees/treemutation.py:UnconstrainedTreeMutationSampler.sample", "bartpy/samplers/oblivioustrees/proposer.py:sample_split_node", "bartpy/node.py:split_node", "bartpy/data.py:Target.summed_y", "bartpy/samplers/leafnode.py:LeafNodeSampler.sample"]}
{"id": "C121", "title": "Integers, booleans and mixed columns: what fit and make_bartpy_data work on (defect beyond 2^53 and with boolean columns)", "statement": "make_bartpy_data(X, y) keeps the shape of X and turns every entry into a double: a double stays, True/False become 1/0, and an int64 becomes a finite double within a relative 2^-53 of it, equal to it up to 2^53; it never reverses the order of two integers, the doubles compare as IEEE comparison says (not at all with a NaN), but every odd integer beyond 2^53 (up to 2^62) becomes the same double as another integer. fit does not convert: an array, and a DataFrame whose columns have one dtype, are used as they are, but integer columns beside a float column are turned into doubles. So while no integer is beyond 2^53, fit on X, fit on its float version and make_bartpy_data work on the same data. Beyond that, for every odd integer there is another one such that two rows that differ only in these two entries satisfy the same split conditions if the DataFrame has a float column, whatever the rest of the data, although with integer columns only a split tells them apart. A DataFrame with a boolean column beside a column of another dtype becomes an object array, for which asking which columns can be split raises NotImplementedError as soon as two rows are left.", "quantifier": "all arrays and DataFrames of int64, bool and float64 columns, all entries, all masks, all targets", "why_tests_cant": "the set of int64 values is too large to try and merged identifiers appear only for particular values and particular dtypes of other columns", "anchors": ["bartpy/data.py: make_bartpy_data, format_covariate_matrix, ensure_numpy_array, ensure_float_array, is_not_constant", "bartpy/sklearnmodel.py: SklearnModel._convert_covariates_to_data"]}
{"id": "C122", "title": "Integer targets: how fit normalises them and what predictions are mapped back to (defect when the range does not fit the integer type)", "statement": "fit on an array y of a signed integer dtype of w bits (int8 to int64) subtracts in that dtype. If max(y) - min(y) < 2^(w-1), the smallest target becomes -1/2, the largest 1/2, every one a finite double in between and within 2^-50 of its exact position, the order is kept, and up to 2^52 the result is to the last bit that of y.astype(float). If the range does not fit (for example int8 targets from -100 to 100), no target lies strictly between -1/2 and 1/2: those less than 2^(w-1) above the smallest become at most -1/2 and the others at least 1/2, in either group in reversed order. Adding a constant to all targets never changes the normalised targets, equal targets become NaN, no targets raise ValueError. Unsigned targets of less than 64 bits always fit: they are normalised and mapped back as signed ones of one bit more. A prediction of -1/2 is mapped back to min(y); a prediction of 1/2 is mapped back to max(y) if the range fits and to max(y) - 2^w if it does not (w at most 52).", "quantifier": "all signed integer widths from 2 to 64 bits and unsigned ones up to 63, all lists of targets in range, all shifts", "why_tests_cant": "the failure depends on the dtype and the range of the targets and is silent; the accuracy claim concerns all int64 lists", "anchors": ["bartpy/data.py: Target.__init__, Target.normalize_y, Target.unnormalize_y", "bartpy/sklearnmodel.py: SklearnModel._convert_covariates_to_data"]}
{"id": "C123", "title": "float32 targets: accuracy of the normalisation and of predictions mapped back (defect on overflow)", "statement": "fit on a float32 array y normalises it in single precision. If the targets and their range are finite and not all equal, the smallest target becomes exactly -1/2, the largest exactly 1/2, every one lies between and within 2^-22 of its exact position; the order is kept and targets further apart than 2^-21 of the range stay apart, but closer ones can become equal. Mapping the normalised targets back gives the targets up to 2^-20 of the range plus a rounding, the smallest exactly. A prediction (a double between -1/2 and 1/2) is mapped back to within 2^-23 of the range, plus a relative 2^-53 of the smallest target, of the exact value. Equal targets, and any NaN among them, make every normalised target NaN; if the range overflows float32, the largest becomes NaN and those whose distance to the smallest is finite become -1/2.", "quantifier": "all lists of float32 targets, all doubles between -1/2 and 1/2 as predictions", "why_tests_cant": "rounding errors must be bounded for every list of float32 numbers", "anchors": ["bartpy/data.py: Target.__init__, Target.normalize_y, Target.unnormalize_y", "bartpy/sklearnmodel.py: SklearnModel._convert_covariates_to_data, SklearnModel.predict"]}
{"id": "C124", "title": "Predicting for an X of another dtype than the training data compares the same numbers, except (defect) for integers beyond 2**53", "statement": "The split values keep the dtype of the training columns. As long as no integer among the split values and the new rows is beyond 2**53 in absolute value, predict sends a row to a leaf exactly if the row has no NaN or -inf in the known columns and its numbers satisfy the conditions on the way there, whichever of them are integers, booleans or floats; so predict(X) and predict(X.astype(float)) send every row the same way. (defect) Beyond 2**53 this fails: for every odd integer beyond 2**53 and up to 2**62 there is another integer such that, when int64 training data were split at the smaller of the two, an integer row with the larger one goes right while the same row as floats does not. Conditions on unknown columns raise KeyError and an X with too few columns raises IndexError, whatever its dtype.", "quantifier": "every number of columns, every list of conditions, every array of integers, booleans or doubles; every odd integer between 2**53 and 2**62 in absolute value", "why_tests_cant": "The dtypes of training data and new data and the sizes of the integers are unbounded choices; a test tries a few small integers, where nothing goes wrong.", "anchors": ["bartpy/splitcondition.py: CombinedVariableCondition.add_condition, CombinedCondition.__init__, CombinedCondition.condition", "bartpy/split.py: out_of_sample_condition"]}
{"id": "C125", "title": "(defect) Predicting for float32 rows after fitting float64 rows need not send a row where the float64 row went", "statement": "When the split values are float32 numbers, predict sends float32 rows exactly where it sends the same rows as float64. Otherwise, for entries and split values of at most 2**127 in absolute value, a row reaches a leaf exactly if its entries rounded to float32 satisfy every condition on the way, where the split values are rounded too before numpy 2 and are not from numpy 2 on. So before numpy 2, for entries and split values of at most 2**127 in absolute value, a row that goes left as float64 goes left as float32, but (defect) a row that goes right as float64 goes right as float32 exactly if rounding to float32 keeps it apart from the rounded split value. From numpy 2 on, the rounded entry is compared with the exact split value; (defect) so the very training row a split value was taken from goes left in fit and not in predict(X.astype(np.float32)) whenever rounding it is upwards.", "quantifier": "every number of columns, every list of conditions and every row, of any float32 numbers for the first part and of doubles of at most 2**127 in absolute value for the others", "why_tests_cant": "Whether two doubles are merged or moved past each other by rounding depends on the last bits of the data; tests with short decimal numbers in one numpy version do not show it.", "anchors": ["bartpy/splitcondition.py: CombinedVariableCondition.add_condition, CombinedCondition.condition", "bartpy/split.py: out_of_sample_condition"]}
