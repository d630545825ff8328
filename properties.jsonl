{"id": "C01", "title": "Choice probabilities sum to one", "statement": "For every case in which at least one elemental alternative has a finite utility, the probabilities the model reports for the elemental alternatives sum to exactly 1, for every nesting tree and every non-zero value of the logsum parameters; when no alternative has finite utility every reported elemental probability is 0.", "quantifier": "all nesting trees, all utilities (including minus infinity), all non-zero logsum parameters, all availability patterns", "why_tests_cant": "the claim ranges over every tree shape and every real utility vector; a test fixes one tree and a few numbers", "anchors": ["larch/numba/model.py:_numba_utility_to_loglike", "larch/model/tree.py:NestingTree.edge_slot_arrays"]}
{"id": "C02", "title": "Probabilities are bounded and unavailable alternatives get zero", "statement": "With positive logsum parameters every reported probability lies in [0,1]; an alternative marked unavailable has probability exactly 0; an available alternative of finite utility has strictly positive probability.", "quantifier": "all trees, utilities, logsum parameters > 0, availability patterns", "why_tests_cant": "unbounded real inputs and trees", "anchors": ["larch/numba/model.py:_numba_utility_to_loglike"]}
{"id": "C03", "title": "Nest utility is the logsum of its children", "statement": "The utility reported for a nest (or the root) with logsum parameter mu is mu*log(sum over available children exp(u/mu)), whatever child is used internally to guard against overflow, and is minus infinity when no child is available; for mu = 0 it is the maximum child utility.", "quantifier": "all lists of children, all utilities, all mu", "why_tests_cant": "the guard picks a data-dependent shift; every ordering/tie/sign combination matters", "anchors": ["larch/numba/model.py:_numba_utility_to_loglike (lines 296-347)"]}
{"id": "C04", "title": "MNL closed form and translation invariance", "statement": "Without nests the probability of available alternative i is exp(u_i)/sum exp(u_j); adding one constant to every utility leaves all probabilities and the log likelihood unchanged.", "quantifier": "all utility vectors, all availability patterns, all constants", "why_tests_cant": "real-valued identity over unbounded dimension", "anchors": ["larch/numba/model.py:_numba_utility_to_loglike", "larch/model/mnl.pyx:_mnl_probability_from_utility"]}
{"id": "C05", "title": "Nested logit collapses to MNL", "statement": "If every logsum parameter equals 1, the nested logit probabilities of the elemental alternatives equal the MNL probabilities computed from the same utilities, whatever the nesting tree.", "quantifier": "all trees, all utilities", "why_tests_cant": "ranges over all tree shapes", "anchors": ["larch/numba/model.py:_numba_utility_to_loglike"]}
{"id": "C06", "title": "Log likelihood is the weighted sum of choice times log probability", "statement": "The log likelihood reported for a case, accumulated edge by edge over nests with rolled-up choices, equals weight * sum over elemental alternatives of choice * log(probability of that alternative).", "quantifier": "all trees, utilities, choice vectors (including fractional and multiple choices), weights", "why_tests_cant": "needs telescoping over arbitrary-depth trees", "anchors": ["larch/numba/model.py:_numba_utility_to_loglike", "larch/numba/cascading.py:cascade_sum"]}
{"id": "C07", "title": "The analytic gradient is the derivative of the log likelihood", "statement": "The vector reported as d_loglike is the exact partial derivative of the reported log likelihood with respect to each free parameter, including logsum parameters.", "quantifier": "all trees, parameter values, data", "why_tests_cant": "finite-difference tests check isolated points only and miss structural cases (shared logsum parameters)", "anchors": ["larch/numba/model.py:_numba_utility_to_loglike (lines 400-500)"]}
{"id": "C08", "title": "BHHH matrix is symmetric and positive semidefinite", "statement": "The reported bhhh matrix of a case is symmetric and, for non-negative choices and weight, positive semidefinite; with a single chosen alternative (choice 1) it is weight times the outer product of the gradient of log P(chosen).", "quantifier": "all gradients, choices, weights", "why_tests_cant": "matrix property over all vectors", "anchors": ["larch/numba/model.py:_numba_utility_to_loglike", "larch/model/mnl.pyx"]}
{"id": "C09", "title": "Independence of irrelevant alternatives inside a nest", "statement": "For two available alternatives sharing a parent nest, the ratio of their reported probabilities is exp((u_a-u_b)/mu): it does not depend on the utilities or availability of any other alternative.", "quantifier": "all trees, utilities", "why_tests_cant": "counterfactual over all other alternatives' inputs", "anchors": ["larch/numba/model.py:_numba_utility_to_loglike"]}
{"id": "C10", "title": "Availability and choice roll up to nests", "statement": "After cascading, a nest is available iff at least one elemental alternative below it is available, and in a tree the chosen-ness of a nest is the sum over the elemental alternatives below it; elemental columns are unchanged.", "quantifier": "all acyclic nesting graphs, all arrays", "why_tests_cant": "single in-place pass correct only because of edge order; needs induction over the DAG", "anchors": ["larch/numba/cascading.py:cascade_or", "larch/numba/cascading.py:cascade_sum", "larch/dataframes.pyx:DataFrames.data_av_cascade"]}
{"id": "C11", "title": "Utility is linear in parameters", "statement": "The utility of each available alternative is the sum over its idca and idco terms of scale * data * parameter; its reported derivative with respect to a free parameter is the sum of scale*data over the terms using it and 0 for a held-fast parameter; unavailable alternatives get minus infinity.", "quantifier": "all term lists, data rows, parameter vectors, holdfast patterns", "why_tests_cant": "unbounded term lists with repeated parameters/alternatives", "anchors": ["larch/numba/model.py:utility_from_data_co", "larch/numba/model.py:utility_from_data_ca"]}
{"id": "C12", "title": "Sparse and dense data give the same utilities", "statement": "For a case stored in sparse (idce) rows sorted by alternative position, the computed utilities equal those computed from the dense idca array in which exactly the alternatives having a row are available.", "quantifier": "all sets of rows per case, all data", "why_tests_cant": "the walking-index loop must be right for every subset pattern of alternatives", "anchors": ["larch/numba/model.py:utility_from_data_ca"]}
{"id": "C13", "title": "Size (quantity) term and its derivative", "statement": "The quantity contribution is theta*log(sum scale*data*exp(parameter)) and its reported derivative with respect to each free parameter is the true derivative.", "quantifier": "all term lists", "why_tests_cant": "aliasing of a parameter across terms is a structural case", "anchors": ["larch/numba/model.py:quantity_from_data_ca", "larch/dataframes.pyx:DataFrames._compute_d_utility_onecase"]}
{"id": "C14", "title": "Converting sparse to dense arrays keeps every value in its own case", "statement": "Every sparse row (case c, alternative a) lands at dense position [c,a] and all other positions hold the fill value.", "quantifier": "all case pointers (including cases without rows), all data", "why_tests_cant": "depends on every pattern of case lengths", "anchors": ["larch/numba/data_arrays.py:ce_to_dense", "larch/numba/data_arrays.py:ce_bool_to_dense"]}
{"id": "C15", "title": "Case pointers delimit exactly the rows of each case", "statement": "from_idce builds case pointers such that rows ptr[c]..ptr[c+1]-1 are exactly the rows whose case id is the c-th case id, and the case index rebuilt from pointers labels each row with its case.", "quantifier": "all index columns", "why_tests_cant": "sortedness/contiguity cases are unbounded", "anchors": ["larch/dataset/construct.py:_DatasetConstruct.from_idce", "larch/dataset/flow.py:case_ptr_to_indexes"]}
{"id": "C16", "title": "Dissolving a sparse variable keeps its values", "statement": "A sparse variable is converted to one value per case only if it is constant within each case, and the converted value is that constant.", "quantifier": "all case pointers and data", "why_tests_cant": "loop over arbitrary case lengths", "anchors": ["larch/dataset/flow.py:ce_dissolve_zero_variance"]}
{"id": "C18", "title": "Standard node order is complete and puts children before parents", "statement": "On an acyclic nesting graph the standard sort lists every node exactly once, elementals first, and every nest after all its children, root last when everything hangs from it.", "quantifier": "all acyclic graphs, all suggested elemental orders", "why_tests_cant": "ranges over all DAGs", "anchors": ["larch/model/tree.py:reverse_lexicographical_topological_sort", "larch/model/tree.py:NestingTree.standard_sort"]}
{"id": "C19", "title": "A cyclic nesting structure is reported", "statement": "If the nesting graph has a cycle, asking for the node order raises an error instead of returning an order that silently lacks nodes.", "quantifier": "all graphs with cycles", "why_tests_cant": "all cyclic graphs", "anchors": ["larch/model/tree.py:reverse_lexicographical_topological_sort"]}
{"id": "C20", "title": "Slot arrays describe the graph", "statement": "The edge arrays list each edge exactly once, grouped by parent with children-before-parents ordering, and the start/length arrays of each nest delimit exactly that nest's edges.", "quantifier": "all acyclic graphs", "why_tests_cant": "array index arithmetic over all graphs", "anchors": ["larch/model/tree.py:NestingTree.edge_slot_arrays", "larch/model/tree.py:NestingTree.node_slot_arrays"]}
{"id": "C21", "title": "No nest or alternative is left without a parent", "statement": "After any sequence of tree edits that name existing parents, every node other than the root has at least one parent; an implied root link disappears as soon as an explicit parent is given.", "quantifier": "all operation sequences", "why_tests_cant": "history property", "anchors": ["larch/model/tree.py:NestingTree.add_node", "larch/model/tree.py:NestingTree.add_edge", "larch/model/tree.py:NestingTree.remove_edge", "larch/model/tree.py:NestingTree.remove_node"]}
{"id": "C22", "title": "New nests get unused codes", "statement": "new_node without a code always terminates with a code not present in the tree, and an explicit code already present is rejected without change.", "quantifier": "all trees", "why_tests_cant": "search loop over all node sets", "anchors": ["larch/model/tree.py:NestingTree.new_node"]}
{"id": "C23", "title": "Cached orders are never stale", "statement": "Whatever sequence of edits and reads is made, reading the standard order, the slot map or the elementals returns what would be computed from the current tree.", "quantifier": "all interleavings of edits and reads", "why_tests_cant": "cache-coherence over histories", "anchors": ["larch/model/tree.py:NestingTree._clear_caches", "larch/model/tree.py:NestingTree.suggest_elemental_order", "larch/util/lazy.py:lazy"]}
{"id": "C25", "title": "Setting values respects held parameters and never partially applies bad input", "statement": "set_values with an array, scalar or keyword ('null','init','best') changes the value of exactly the parameters that are not held fast, to the given values; wrong length or NaN among the free entries raises and changes nothing; unknown names in a dict are ignored.", "quantifier": "all parameter frames, all value vectors, all holdfast patterns", "why_tests_cant": "all frames and holdfast patterns", "anchors": ["larch/model/parameter_frame.pyx:ParameterFrame.set_values"]}
{"id": "C26", "title": "Scanning a model for names preserves existing parameter settings", "statement": "Registering parameter names appends the missing ones with default values, keeps every existing row unchanged and in order, and never duplicates a name; repeating it changes nothing.", "quantifier": "all frames and name lists", "why_tests_cant": "history property", "anchors": ["larch/model/parameter_frame.pyx:ParameterFrame._ensure_names"]}
{"id": "C27", "title": "Locked parameters stay locked", "statement": "After lock_value(name, v) the parameter's value, initial, null value and bounds all equal v, and no later set_values call (array, scalar or dict) changes its value until it is explicitly unlocked or set by name.", "quantifier": "all later call sequences", "why_tests_cant": "history property", "anchors": ["larch/model/parameter_frame.pyx:ParameterFrame.lock_value", "larch/model/parameter_frame.pyx:ParameterFrame.set_values"]}
{"id": "C28", "title": "set_cap bounds every parameter", "statement": "After set_cap(c) with c>=0 each parameter whose previous bounds intersected [-c,c] has bounds equal to that intersection; parameters whose bounds lie entirely outside keep them; missing bounds become -c and c; minimum<=maximum is preserved.", "quantifier": "all bounds (including infinite and missing), all caps", "why_tests_cant": "case analysis over extended reals", "anchors": ["larch/model/parameter_frame.pyx:ParameterFrame.set_cap"]}
{"id": "C29", "title": "Diagnostics leave the parameters where they were", "statement": "loglike_null and likelihood_ratio return the log likelihood at (resp. difference to) the modified point and leave every parameter value unchanged afterwards.", "quantifier": "all frames, all log likelihood functions", "why_tests_cant": "state restoration over all holdfast patterns", "anchors": ["larch/model/abstract_model.pyx:AbstractChoiceModel.loglike_null", "larch/model/abstract_model.pyx:AbstractChoiceModel.likelihood_ratio"]}
{"id": "C30", "title": "The best-seen parameters are really the best seen", "statement": "After any sequence of full-sample log likelihood evaluations the 'best' column holds parameter values at which the greatest log likelihood since the last reset was obtained, and the cached best value equals that log likelihood.", "quantifier": "all evaluation sequences", "why_tests_cant": "history property", "anchors": ["larch/model/abstract_model.pyx:AbstractChoiceModel._check_if_best"]}
{"id": "C32", "title": "BHHH estimation never ends worse than it started", "statement": "The simple BHHH optimizer and model/optimization.fit_bhhh accept only strictly improving steps, so the log likelihood on return is at least that at the start, the parameters left in the model are those of the last accepted step, and on failure they raise with the parameters reset to the last accepted step.", "quantifier": "all log likelihood functions, directions, step settings, iteration limits", "why_tests_cant": "loop invariant over every objective", "anchors": ["larch/model/abstract_model.pyx:AbstractChoiceModel.simple_step_bhhh", "larch/model/abstract_model.pyx:AbstractChoiceModel.simple_fit_bhhh", "larch/model/optimization.py:fit_bhhh"]}
{"id": "C33", "title": "The log likelihood returned by estimation is that of the parameters left in the model", "statement": "numba fit_bhhh returns the log likelihood of the parameter values it leaves in the model, and this is no lower than at the start.", "quantifier": "all objectives", "why_tests_cant": "loop invariant over every objective", "anchors": ["larch/numba/optimization.py:fit_bhhh"]}
{"id": "C34", "title": "Held-fast parameters never move in estimation", "statement": "No BHHH step, jumpstart or optimizer proposal changes the value of a parameter with holdfast set.", "quantifier": "all gradients, BHHH matrices, holdfast patterns, iteration counts", "why_tests_cant": "history property", "anchors": ["larch/model/optimization.py:propose_direction", "larch/model/abstract_model.pyx:AbstractChoiceModel._free_slots_inverse_matrix"]}
{"id": "C35", "title": "Default estimation method and settings restoration", "statement": "With no method given, SLSQP is used iff there is a constraint or any finite bound, else BHHH; the model's constraint intensity and sharpness after maximize_loglike (normal or exceptional exit) are those before it.", "quantifier": "all bounds vectors, all exits", "why_tests_cant": "decision rule over all vectors and exit paths", "anchors": ["larch/model/optimization.py:maximize_loglike"]}
{"id": "C36", "title": "A constraint's function is non-negative exactly on the feasible set", "statement": "For FixedBound, OrderingBound and RatioBound, fun(x) >= 0 iff the documented inequality holds at x, and the linear-constraint form agrees with it; a constraint is reported binding iff the inequality holds with equality (within tolerance).", "quantifier": "all parameter vectors, all bounds, ratios, scales", "why_tests_cant": "real inequalities over all signs", "anchors": ["larch/model/constraints.py:RatioBound", "larch/model/constraints.py:OrderingBound", "larch/model/constraints.py:FixedBound"]}
{"id": "C38", "title": "The constraint list holds no duplicates", "statement": "After any sequence of append/insert/set/extend operations the list contains no two equal constraints when duplicates are disallowed, and every constraint accepted is present.", "quantifier": "all operation sequences", "why_tests_cant": "history property", "anchors": ["larch/model/constraints.py:ParametricConstraintList"]}
{"id": "C39", "title": "Covariance with fixed parameters and binding constraints", "statement": "Rows and columns of the covariance matrix for held-fast parameters are zero; after accounting for binding constraints the variance of each binding linear combination is zero, the matrix stays symmetric positive semidefinite and no parameter's variance increases.", "quantifier": "all symmetric PSD matrices, all constraint sequences", "why_tests_cant": "matrix identity for all dimensions and sequences", "anchors": ["larch/model/abstract_model.pyx:AbstractChoiceModel.calculate_parameter_covariance"]}
{"id": "C40", "title": "Bounds penalty is non-negative, monotone and vanishes inside", "statement": "The soft penalty grows with constraint violation, is continuous, and its reported gradient is its derivative.", "quantifier": "all values, sharpness, intensity", "why_tests_cant": "real analysis over all arguments", "anchors": ["larch/numba/model.py:softplus", "larch/numba/model.py:d_softplus", "larch/numba/model.py:bounds_penalty"]}
{"id": "C41", "title": "Linear function algebra preserves meaning", "statement": "Building a utility with +, -, unary minus, * over parameters, data and numbers gives a function whose value at any parameter values and data equals the arithmetic of its parts.", "quantifier": "all expressions, all parameter values and data", "why_tests_cant": "structural induction over all expressions", "anchors": ["larch/model/linear.pyx:LinearFunction", "larch/model/linear.pyx:LinearComponent", "larch/model/linear.pyx:ParameterRef"]}
{"id": "C42", "title": "Parameter arithmetic evaluates and prints faithfully", "statement": "The value of a parameter expression is the arithmetic of its parts, and its printed form re-read as an expression has the same value.", "quantifier": "all expressions", "why_tests_cant": "structural induction over all expressions", "anchors": ["larch/model/linear_math.py:ParameterOp"]}
{"id": "C43", "title": "Latent class probability is the class-weighted mixture", "statement": "The probability a latent class model reports is the sum over classes of class membership probability times the class-specific probability; if each part is a distribution the result is a distribution.", "quantifier": "all class counts, probabilities", "why_tests_cant": "unbounded dimension", "anchors": ["larch/model/latentclass.py:LatentClassModel.probability"]}
{"id": "C44", "title": "Model groups add up", "statement": "A group's log likelihood, gradient, n_cases and total weight are the sums over members with gradients aligned by parameter name, and setting a value in the group sets it in every member that has the parameter.", "quantifier": "all member lists and parameter overlaps", "why_tests_cant": "unbounded member lists", "anchors": ["larch/model/model_group.py:ModelGroup"]}
{"id": "C45", "title": "Latent class BHHH is the sum of outer products of case gradients", "statement": "The bhhh matrix returned with loglike2_bhhh equals the weighted sum of the outer products of per-alternative gradients of log probability.", "quantifier": "all gradients", "why_tests_cant": "buffer aliasing is invisible to shape tests", "anchors": ["larch/model/nl.pyx:d_loglike_from_d_probability"]}
{"id": "C46", "title": "Autoscaling weights changes only the normalization", "statement": "autoscale_weights makes the average weight 1 (non-zero total), leaves choice*weight*normalization unchanged for every case and alternative, makes each case's choices total 1 or 0, and unscale_weights restores the weights.", "quantifier": "all choice arrays and weights", "why_tests_cant": "data-dependent extraction loop over all arrays", "anchors": ["larch/dataframes.pyx:DataFrames.autoscale_weights", "larch/dataframes.pyx:DataFrames.scale_weights", "larch/dataframes.pyx:DataFrames.unscale_weights"]}
{"id": "C47", "title": "Splitting partitions the cases", "statement": "split assigns each case to exactly one part, in order, with part sizes proportional to the requested shares up to rounding.", "quantifier": "all case counts and share vectors", "why_tests_cant": "all shares and sizes", "anchors": ["larch/dataframes.pyx:DataFrames.split"]}
{"id": "C48", "title": "Sparse row lookup is exact", "statement": "The (case,alternative)->row map built for idce data returns the row holding that pair or none; values exported to idce format land on the row of their own case and alternative.", "quantifier": "all index columns", "why_tests_cant": "all sparse patterns", "anchors": ["larch/dataframes.pyx:DataFrames.data_ce", "larch/dataframes.pyx:DataFrames.array_to_ce"]}
{"id": "C50", "title": "The doctor's repairs fix what they report", "statement": "After doctor with repairs enabled no case has a chosen unavailable alternative, and no case without any choice has positive weight; data that had no problem are unchanged; diagnosis is reported iff a problem existed.", "quantifier": "all data arrays", "why_tests_cant": "interaction of repairs over all arrays", "anchors": ["larch/troubleshooting.py:doctor", "larch/troubleshooting.py:chosen_but_not_available", "larch/troubleshooting.py:nothing_chosen_but_nonzero_weight"]}
{"id": "C51", "title": "Piecewise legs add up to the variable", "statement": "For increasing breakpoints the values of the piecewise linear segments of x sum to x, each is within its segment's width, and only consecutive segments are active.", "quantifier": "all x, all break lists", "why_tests_cant": "real x and unbounded break lists", "anchors": ["larch/util/data_expansion.py:piece", "larch/util/data_expansion.py:piecewise_linear"]}
{"id": "C52", "title": "Bit fields do not overlap", "statement": "Masks produced by define_masks are pairwise disjoint and contiguous, and packing then extracting fields returns each field.", "quantifier": "all field widths", "why_tests_cant": "all widths/values", "anchors": ["larch/util/bitmasking.py"]}
{"id": "C53", "title": "Systematic alternative codes identify alternatives", "statement": "The generated codes are distinct for distinct category combinations and the masks recover each category from the code.", "quantifier": "all category counts, padding levels, rows", "why_tests_cant": "all counts; fails at powers of two", "anchors": ["larch/model/systematic_alternatives.py"]}
{"id": "C54", "title": "label_to_index maps each value to its label's position", "statement": "For every label array and query array, each queried value that is one of the labels is mapped to the position of that label; a value that is not is mapped to the position of the smallest label above it, or of the greatest label if there is none; duplicate labels raise the documented error.", "quantifier": "all label arrays in any order, all query values", "why_tests_cant": "ordering-dependent behaviour that a handful of sorted examples never shows", "anchors": ["larch/util/arraytools.py:label_to_index", "larch/util/arraytools.py:is_sorted_and_unique"]}
{"id": "C55", "title": "Estimation terminates", "statement": "The BHHH optimizers return or raise after finitely many evaluations for every objective, start and direction, provided the minimum step length is positive (and, for the numba optimizer, the sharpness is positive and grows).", "quantifier": "all objectives, starts, holdfast patterns, settings", "why_tests_cant": "termination for every objective", "anchors": ["larch/model/abstract_model.pyx:AbstractChoiceModel.simple_fit_bhhh", "larch/model/optimization.py:fit_bhhh", "larch/numba/optimization.py:fit_bhhh"]}
{"id": "C56", "title": "Nests built from systematic alternatives are a partition", "statement": "For every systematic alternatives table and every covering list of categories, the built graph has exactly the edges the categories imply, every node has one parent, and two alternatives share a nest at a level exactly when they agree on the categories of that level.", "quantifier": "all tables, category counts, padding levels", "why_tests_cant": "the graph depends on bit arithmetic over every category count", "anchors": ["larch/model/systematic_alternatives.py:magic_nesting", "larch/model/systematic_alternatives.py:SystematicAlternatives"]}
{"id": "C57", "title": "Category recodings are exact", "statement": "Expanding a categorical column gives for each row a one in the column of its value and zeros elsewhere, compressing the expansion gives the column back, and recoding labels to ids can be undone with the returned labels.", "quantifier": "all columns of any length and values", "why_tests_cant": "all columns", "anchors": ["larch/util/data_expansion.py:to_categorical", "larch/util/data_expansion.py:categorical_compression", "larch/util/data_expansion.py:categorical_expansion", "larch/util/arraytools.py:labels_to_unique_ids"]}
{"id": "C58", "title": "Case-indexed parts stay aligned", "statement": "However the rows of the supplied tables are ordered, the case data, choices, availability and weights of a DataFrames list the same cases in the same order, and no row is lost.", "quantifier": "all row orders and case ids", "why_tests_cant": "all permutations of the rows", "anchors": ["larch/dataframes.pyx:DataFrames.data_co", "larch/dataframes.pyx:DataFrames.data_ch", "larch/dataframes.pyx:DataFrames.data_av", "larch/dataframes.pyx:DataFrames.data_wt"]}
{"id": "C59", "title": "Cracking idca data loses nothing", "statement": "Splitting a case-alternative table into a case table and a case-alternative table puts each column on one side, exactly the columns that are constant within every case on the case side, and every cell can be read back from its side.", "quantifier": "all tables", "why_tests_cant": "all tables of any size, including missing cells", "anchors": ["larch/dataframes.pyx:crack_idca", "larch/dataframes.pyx:force_crack_idca"]}
{"id": "C61", "title": "Latent class parts share one set of parameters", "statement": "After a latent class model is put together, setting a parameter in it sets that parameter in the membership model and in every class that uses it; the value of a parameter known to several parts is that of the first of them; and parameters later introduced by changing a part appear in the latent class model.", "quantifier": "all parts, frames, parameter overlaps and later histories of edits", "why_tests_cant": "sharing is by object identity and depends on the history", "anchors": ["larch/model/latentclass.py:sync_frames", "larch/model/latentclass.py:LatentClassModel.unmangle", "larch/model/parameter_frame.pyx:ParameterFrame.set_frame"]}
{"id": "C62", "title": "Parallel evaluation does not depend on the schedule", "statement": "For every number of threads, every way of handing the cases to threads and every interleaving of their steps, the multi-threaded multinomial logit evaluation returns the same log likelihood, gradient, BHHH matrix and casewise arrays: the sums (and rows) of the casewise logit formulas over the requested case range and cross-validation fold; keep_only folds, and leave_out with keep_only, add up to the whole sample; the gradient is the derivative of the log likelihood.", "quantifier": "all data, ranges, folds, thread counts, distributions of cases and interleavings of single stores", "why_tests_cant": "schedules cannot be enumerated by tests", "anchors": ["larch/model/mnl.pyx:mnl_d_log_likelihood_from_dataframes_all_rows", "larch/model/mnl.pyx:_mnl_probability_from_utility", "larch/model/mnl.pyx:_mnl_log_likelihood_from_probability_stride", "larch/model/mnl.pyx:_mnl_d_log_likelihood_from_d_utility"]}
{"id": "C63", "title": "The Cython engine's nested and cross-nested logit", "statement": "For every rooted acyclic nesting structure (trees, and networks where a node has several parents and is allocated to them) and all positive logsum parameters, the Cython engine's nest utilities are the allocation-weighted logsums of their available children, the probabilities of the alternatives are the cross-nested logit shares and add up to one (unavailable alternatives get zero), the log likelihood is the weighted sum of choice times log probability, the allocations a nesting graph gets by default add up to one for every node, adding a constant to all utilities changes no probability, on trees the engine agrees with the numba engine on logsums, probabilities, log likelihood and gradient, and the reported gradient is the derivative of the log likelihood.", "quantifier": "every rooted acyclic nesting graph, allocation, logsum parameter vector, availability pattern, utility, choice vector (alternatives or nodes) and weight", "why_tests_cant": "the recursion runs over arbitrary networks and real values; tests compare a handful of published models with a tolerance", "anchors": ["larch/model/nl.pyx:_nl_utility_upstream_v2", "larch/model/nl.pyx:_nl_total_probability_from_conditional_logprobability", "larch/model/nl.pyx:_nl_d_probability_from_d_utility", "larch/model/nl.pyx:nl_d_log_likelihood_from_dataframes_all_rows", "larch/model/tree_struct.pyx", "larch/model/tree.py:_get_simple_mu_and_alpha"]}
{"id": "C64", "title": "The compiled engine's utilities", "statement": "For every case and alternative that is available and has data, the compiled engine's utility is the sum of scale times data times parameter over its idca and idco terms plus the scale parameter times the log of its size, read from that alternative's own row wherever the row stands in the table; all other alternatives get minus infinity. The only change is that when some utility exceeds 500 the largest is subtracted from all, which changes no probability, likelihood or gradient. The evaluation with derivatives gives the same utilities as the one without, held parameters get derivative zero, the derivatives of the others are the derivatives, no parameter value is left over from an earlier evaluation, and both engines agree. Alternatives reported as having zero quantity are exactly those whose quantity data are all zero.", "quantifier": "all data tables (dense or sparse, rows in any order), availability, terms, parameters, holdfasts, earlier evaluations", "why_tests_cant": "real-valued functions of arbitrary data; tests compare a few published values", "anchors": ["larch/dataframes.pyx:DataFrames._compute_d_utility_onecase", "larch/dataframes.pyx:DataFrames._compute_utility_onecase", "larch/dataframes.pyx:DataFrames._read_in_model_parameters", "larch/dataframes.pyx:DataFrames.link_to_model_parameters", "larch/dataframes.pyx:DataFrames.get_zero_quantity_ca"]}
{"id": "C60", "title": "A constraint written as text says what the text says", "statement": "Every text of the documented forms (a parameter or a ratio of parameters against a number, a parameter between two numbers, one parameter against another, with < and <= or > and >=, numbers in decimal, exponent or fraction notation, any blanks) is read as the constraint stating that inequality, which then holds at exactly the parameter values where the text is true; a text is never read as something it does not say; a text that is not read is refused and leaves the constraint list alone; OrderingBound's own reading of a string agrees with the list's.", "quantifier": "all texts, names, numerals, blanks, parameter values", "why_tests_cant": "the texts are unbounded; regular expressions with optional parts overlap", "anchors": ["larch/model/constraints.py:interpret_contraint", "larch/model/constraints.py:asfloat", "larch/model/constraints.py:OrderingBound", "larch/model/constraints.py:ParametricConstraintList"]}
{"id": "C65", "title": "Reading a table of cases and alternatives keeps every row in its own cell", "statement": "Reading a table with one row per case and alternative (from_idca) gives a dataset whose cases and alternatives are those of the rows, each once; every entry of a row is found under its case and alternative (by code, or by the name attached to the code), whatever the order of the rows and the options; constants per case are recognised without changing a value (floats within the tolerance); when some pairs have no row an availability variable says exactly which pairs have one; fill values go to the pairs without a row and nowhere else; the caller's table is not changed; the names given are those the dataset reports; repeated pairs are refused.", "quantifier": "all tables, data types, missing pairs, row orders, alternative labels, names and options", "why_tests_cant": "tables, patterns of missing rows and combinations of options are unbounded", "anchors": ["larch/dataset/construct.py:_DatasetConstruct.from_idca", "larch/dataset/flow.py:_GenericFlow.dissolve_zero_variance", "larch/dataset/patch.py:set_dtypes", "larch/dataset/flow.py:_GenericFlow.set_altnames", "larch/dataset/flow.py:_GenericFlow.alts_mapping", "larch/dataset/construct.py:_initialize_for_larch"]}
{"id": "C66", "title": "What a model answers does not depend on what it was asked before", "statement": "The answers of the evaluation methods of a numba model (loglike, d_loglike, bhhh, their casewise forms, probability, utility, logsums, quantity, loglike2, constraint_converge_tolerance) depend only on the parameter values, the penalty intensity and the cases selected, not on earlier questions; asking twice gives the same answer; slices select cases as Python slices do, and parts of the data add up to the whole; an array handed out keeps its values; labelled results carry the id of their own case and the code or name of their own node; a penalty is counted once.", "quantifier": "all models, data, values, slices and finite histories of calls", "why_tests_cant": "histories, slices and the reuse of work arrays are unbounded", "anchors": ["larch/numba/model.py:NumbaModel._loglike_runner", "larch/numba/model.py:_numba_master_vectorized", "larch/numba/model.py:NumbaModel.probability", "larch/numba/model.py:NumbaModel.utility", "larch/numba/model.py:NumbaModel.quantity", "larch/numba/model.py:NumbaModel.loglike2_bhhh", "larch/numba/model.py:NumbaModel._wrap_as_dataframe", "larch/numba/model.py:NumbaModel.constraint_converge_tolerance"]}
{"id": "C67", "title": "Changes to a model take effect at the next evaluation", "statement": "Whatever is changed in a numba model between evaluations (utility and quantity functions, by assignment or edited in place; quantity scale and logsum parameter; choice, weight and availability settings; graph, data tree, float type; parameter values and frame; constraints), the next evaluation uses the settings as they then are: every parameter by its name, every variable by its expression on the present data; nothing compiled earlier is used for settings that have changed. Assignments store what is assigned and nothing else; an evaluation changes no setting; removing unused parameters or sorting the frame changes no value that is used; constraints apply to the parameters they name.", "quantifier": "all numbers of models sharing a session, all finite sequences of changes and evaluations, all data", "why_tests_cant": "sequences of edits and evaluations, aliasing of function objects between models and caches of prepared data are unbounded", "anchors": ["larch/numba/model.py:NumbaModel.mangle", "larch/numba/model.py:NumbaModel.unmangle", "larch/numba/model.py:NumbaModel.reflow_data_arrays", "larch/numba/model.py:NumbaModel._rebuild_fixed_arrays", "larch/numba/data_arrays.py:prepare_data", "larch/numba/data_arrays.py:flownamer", "larch/model/linear.pyx:LinearFunction_C", "larch/model/linear.pyx:DictOfLinearFunction_C", "larch/model/controller.pyx:Model5c", "larch/model/parameter_frame.pyx:ParameterFrame", "larch/model/constraints.py:ParametricConstraintList", "larch/model/model.py:Model.remove_unused_parameters"]}
{"id": "C68", "title": "Each alternative's data goes to its own node", "statement": "In a numba model the utility, availability and choice reported for an alternative code, the probability in the column labelled with that code, and the log likelihood are those of the nested logit model in which the graph node with that code carries that alternative's own data, whatever order the alternatives come in in the data and in the graph, and data for other alternatives than the graph's is refused.", "quantifier": "all single-parent nesting graphs and suggested orders, all orders of the data's alternatives, all three ways to give choices and availability, all utility specifications, data, weights and positive logsum parameters", "why_tests_cant": "the order of the alternatives is data; a test with sorted codes (the usual case) never exercises the difference", "anchors": ["larch/numba/data_arrays.py:prepare_data", "larch/numba/model.py:model_co_slots", "larch/numba/model.py:NumbaModel._rebuild_fixed_arrays", "larch/numba/model.py:NumbaModel._wrap_as_dataframe", "larch/numba/cascading.py:array_ch_cascade", "larch/numba/cascading.py:array_av_cascade", "larch/dataset/flow.py:to_arrays", "larch/model/tree.py:NestingTree.elementals", "larch/model/tree.py:NestingTree.standard_sort", "larch/model/controller.pyx:Model5c.initialize_graph"]}
{"id": "C69", "title": "Feasibility is checked and enforced as stated", "statement": "constraint_violation() says nothing exactly when every parameter is between its minimum and maximum and every registered constraint holds, and otherwise names a bound or constraint that is violated, with the right numbers, or raises with the same message. SLSQP and trust-constr are told exactly the feasible region, every other scipy method at most part of it, and no method is ever kept from a feasible point; the default method keeps the estimates feasible. A BHHH run that reports success ends at a feasible point.", "quantifier": "all frames, bounds (also infinite), constraints, values, methods, objectives, starting points and iteration counts", "why_tests_cant": "feasible regions and optimizer histories are unbounded; tests estimate a few models with inactive bounds", "anchors": ["larch/numba/model.py:NumbaModel.constraint_violation", "larch/model/model.py:Model._get_constraints", "larch/model/parameter_frame.pyx:ParameterFrame.pbounds", "larch/model/optimization.py:maximize_loglike", "larch/numba/optimization.py:fit_bhhh", "larch/model/constraints.py:ParametricConstraint.as_linear_constraints"]}
{"id": "C70", "title": "The reported standard errors, t statistics and notes are what they say", "statement": "After calculate_parameter_covariance(), every free parameter's standard error is the square root of its variance in the reported covariance matrix and its t statistic the distance to its null value in standard errors; the robust columns say the same of the robust matrix and the unconstrained ones of the matrix before constraints, which is never smaller. A parameter at a binding bound is shown infinitely significant without a standard error, held parameters are said to be fixed and have no statistics, and each parameter's notes are exactly those of the binding constraints that mention it, each true up to the tolerance. Likelihood ratios are computed for the parameters without a finite t statistic. No value, bound or setting changes.", "quantifier": "all frames, values, bounds, holdfasts, constraints, hessians and earlier reports", "why_tests_cant": "matrices, constraint lists and earlier states of the columns are unbounded; tests compare a few published models without binding constraints", "anchors": ["larch/model/abstract_model.pyx:AbstractChoiceModel.calculate_parameter_covariance", "larch/model/abstract_model.pyx:AbstractChoiceModel.likelihood_ratio", "larch/model/constraints.py:get_binding_note", "larch/model/constraints.py:get_parameters", "larch/model/model.py:Model._get_bounds_constraints"]}
{"id": "C71", "title": "The choice and availability summary", "statement": "choice_avail_summary() shows for every alternative how often it was chosen and in how many cases it was available, for every nest how often an alternative below it was chosen and in how many cases one below it was available, and a total that counts every choice once (the number of cases when each case chooses once). The column of chosen but unavailable alternatives is there exactly when there are any, with the right numbers and total. Weighted data shows weighted counts besides.", "quantifier": "all datasets (numbers of cases and alternatives, choices, availability, weights) and nesting trees", "why_tests_cant": "data and trees are unbounded; tests look at a few published data sets, unweighted and with everything chosen available", "anchors": ["larch/dataset/__init__.py:choice_avail_summary", "larch/numba/model.py:NumbaModel.choice_avail_summary", "larch/numba/cascading.py:array_ch_cascade", "larch/numba/cascading.py:array_av_cascade"]}
{"id": "C72", "title": "A saved and restored model gives the same answers", "statement": "A model saved with dumps() or pickle and restored, once given the same data, computes the same log likelihoods and derivatives as the original: every setting, function term and parameter value comes back. The restored model has functions of its own: changes to it or to the original take effect there and nowhere else. copy() does the same in one step.", "quantifier": "all models in all states of a session (before, between and after evaluations and changes), all later sessions with the restored model beside the others", "why_tests_cant": "the state of a model at the moment it is saved and what is done with both afterwards are histories of any length; tests save one fresh model and look at its text", "anchors": ["larch/model/model.py:dumps", "larch/model/model.py:copy", "larch/model/model.py:Model.load", "larch/model/controller.pyx:__getstate__", "larch/model/controller.pyx:__setstate__", "larch/numba/model.py:NumbaModel.__getstate__", "larch/numba/model.py:NumbaModel.__setstate__", "larch/model/linear.pyx:DictOfLinearFunction_C.__set__"]}
{"id": "C73", "title": "The ordered parameter table shows every parameter once, in its place", "statement": "With an ordering, the table of a parameter frame (pfo, parameter_summary) shows each parameter exactly once, with its own row, under the category whose pattern is the first to match its name, or under 'Other'; the rows follow the order of the patterns and then of the names. The stars of the Signif column say by how much |t| exceeds 1.96, 2.5758 and 3.2905, or, in brackets, when there is no finite t, by how much the likelihood ratio exceeds 1.9207, 3.3174 and 5.4138. joint_parameter_summary shows every parameter of any of the models once and, under the title of each model, that model's own value.", "quantifier": "All orderings (any categories, any patterns, any matching of patterns and names), heads and tails, all frames, all statistics (finite, infinite, NaN, missing), any number of models.", "why_tests_cant": "That no parameter is lost or shown twice depends on how arbitrary user-written patterns overlap on arbitrary names; tests fix a few orderings.", "anchors": ["larch/model/parameter_frame.pyx:pfo", "larch/model/parameter_frame.pyx:ordering", "larch/model/parameter_frame.pyx:parameter_summary", "larch/util/summary.py:joint_parameter_indexing", "larch/util/summary.py:joint_parameter_summary"]}
{"id": "C74", "title": "Asking a model for values answers every part with its own value", "statement": "pvalue, given a name, a reference, a parameter expression, a number, or any nesting of dicts, lists, tuples and sets of these, answers in the same shape with every part's own value; a part that has no value is given the default, if there is one, and otherwise pvalue raises KeyError for a name that is not in the frame. Asking changes no value. A reference evaluated on several models takes its value from the first that has it.", "quantifier": "All models (any frame, any parameters not yet scanned), all nestings, all expressions, with and without a default.", "why_tests_cant": "The nesting is unbounded, and what a call answers depends on what was asked before; tests ask a few fixed questions of fresh models.", "anchors": ["larch/model/parameter_frame.pyx:pvalue", "larch/model/parameter_frame.pyx:get_value", "larch/model/linear.pyx:ParameterRef_C.value", "larch/model/linear_math.py:value"]}
{"id": "C75", "title": "Every value gets the label of its section", "statement": "periodize gives every value of a Series or array the label of the last section it lies in - bounds belonging to the section as left and right say, None being no bound - and the default if it lies in none; as many labels as values; NaN gets the default. The mapping given is only read.", "quantifier": "All values, all sections (overlapping, repeated labels, open ended), left, right, defaults, mappings as None, dict or list, with keywords, and any later call with the same mapping.", "why_tests_cant": "Overlaps, boundaries and repeated calls with one mapping are unboundedly many; a test labels one array once.", "anchors": ["larch/util/data_manipulation.py:periodize"]}
{"id": "C76", "title": "Fourier terms and hard sigmoids are what they say", "statement": "fourier_expansion gives as many columns as asked, the i-th being sine or cosine in turn of 2 pi k times the variable, k = 1, 1, 2, 2, ..., at every row; all names are distinct, each name read as a data expression gives its column, and fourier_series of the same length uses just those columns, with a parameter each. hard_sigmoid is 0 on the side of zero_bound, 1 on the side of one_bound and linear between, rising or falling, always between 0 and 1; swapping the bounds gives the complement.", "quantifier": "All variables and values (any reals; for the sigmoid also infinities and NaN), all lengths, all bounds.", "why_tests_cant": "Statements about all reals, lengths and bounds; a test compares a few rows.", "anchors": ["larch/util/data_expansion.py:fourier_expansion_names", "larch/util/data_expansion.py:fourier_expansion", "larch/util/common_functions.py:fourier_series", "larch/util/data_expansion.py:hard_sigmoid"]}
