# Formal model of jpn--/larch in Rocq (Coq 8.16.1)

## Approach

The code in /repo is modelled function by function as total Gallina functions
(`*Model.v`), each definition citing the file and lines it models.  Small independent
specifications are in `*Spec.v` (they import no model definition beyond data types).
Proofs live in `*Proofs.v` and in the further unnamed files of a module; the property
statements live in `*Props.v`, next to non-vacuity `Example`s that exhibit a concrete case
meeting the hypotheses.  A theorem whose name ends in `_refuted` is the proved negation of
the property (or of a part of it) for the code as it is; one that ends in `_partial` proves
the property under an extra hypothesis, which the manifest note names.

* Arithmetic: floats are modelled by the real numbers `R` of the standard library (or
  `Z`/`Q` where only order / integers matter).  Minus infinity is an explicit value
  (`option R`, `None` = -inf).  Rounding, overflow and NaN propagation are NOT modelled
  unless a property is about NaN (then NaN is an explicit value).
* numpy / pandas / xarray containers: lists or functions from indices; labels are `nat`,
  `Z` or `string`.
* Python exceptions: explicit result values.
* Loops: folds or structural recursion; unbounded `while`: fuel, with a theorem that some
  fuel suffices (or that the loop does not end).

## Trusted base

* Coq 8.16.1 kernel (`coqc`).
* Standard-library axioms of the classical reals, listed per theorem below.  No other
  library's axioms, none of our own.
* Coquelicot is used for derivatives (`is_derive`); its definitions appear in the
  statements of the gradient theorems.  std++, Iris, mathcomp are not used.
* The reading of the Python/Cython code into Gallina (not machine checked).  Every model
  definition cites its source so that the reading can be checked by hand; `seeded/LOG.jsonl`
  records wrong readings tried on purpose and the theorems that rejected them.

## Axioms per theorem

`Print Assumptions` is run on every theorem of the manifest by `theories/Assumptions.v`. Codes: F = `ClassicalDedekindReals.sig_forall_dec`, N = `ClassicalDedekindReals.sig_not_dec`, E = `FunctionalExtensionality.functional_extensionality_dep`, C = `Classical_Prop.classic`; `-` = closed under the global context. All four are in the standard library; no other axiom occurs.

* `-`: 132 theorems
* `CEF`: 13 theorems
* `CEFN`: 122 theorems
* `CF`: 4 theorems
* `E`: 1 theorems
* `EF`: 256 theorems
* `EFN`: 25 theorems
* `F`: 7 theorems

The code of each theorem is given beside its name in the next section.

## Properties

### C01 Choice probabilities sum to one

*Modelled and proved how.* LogitModel `run_case` (numba kernel) over any slot arrays that describe a tree; induction over the nodes in slot order: the probability of a node is the sum over its available children.

*Status:* proved. For every tree; C01_cross_nested_refuted shows that alternatives placed in two nests break it.

* `LogitExProps.v`: `C01_cross_nested_refuted` [CEFN]
* `LogitProps.v`: `C01_probabilities_sum_to_one` [CEFN], `C01_none_available` [CEFN]

### C02 Probabilities are bounded and unavailable alternatives get zero

*Modelled and proved how.* Same model; every conditional probability is the exponential of a non-positive number, by induction from the root down; unavailable nodes are written 0.

*Status:* proved.

* `LogitProps.v`: `C02_probability_bounds` [CEFN]

### C03 Nest utility is the logsum of its children

*Modelled and proved how.* `nest_step` with the shift by the largest utility; exact logarithm identities, the running maximum is shown to cancel.

*Status:* partial. Logsum proved for every non-zero mu; refuted for mu=0 (value is max of 0 and the children).

* `LogitProps.v`: `C03_logsum` [CEFN], `C03_alternative_utility` [CEFN], `C03_mu_zero_value` [CEFN], `C03_mu_zero_max_refuted` [CEFN]

### C04 MNL closed form and translation invariance

*Modelled and proved how.* `run_case` on a one-level tree, compared with exp(u)/sum exp; adding a constant to all utilities.

*Status:* proved.

* `LogitProps.v`: `C04_mnl_closed_form` [CEFN], `C04_translation_invariance` [CEFN]

### C05 Nested logit collapses to MNL

*Modelled and proved how.* `run_case` on a tree whose logsum parameters are 1, compared with the one-level tree, by induction over nests.

*Status:* proved.

* `LogitProps.v`: `C05_collapse_to_mnl` [CEFN]

### C06 Log likelihood is the weighted sum of choice times log probability

*Modelled and proved how.* The edge loop `logprob_step` with cascaded choices; telescoping of edge log probabilities along the path of each alternative.

*Status:* proved.

* `LogitProps.v`: `C06_loglike` [CEFN], `C06_chosen_unavailable` [CEFN]

### C07 The analytic gradient is the derivative of the log likelihood

*Modelled and proved how.* The three derivative loops (utilities up, probabilities down, likelihood) against Coquelicot `is_derive` of the likelihood as a function of one parameter; induction over slots with derivative invariants. UtilityProps extends it from elemental utilities to the data terms.

*Status:* partial. Gradient = derivative proved when the root has no logsum parameter, no nest parameter is reused below the nest, and chosen probabilities are at least 1e-250; refuted for the first two excluded cases.

* `LogitExProps.v`: `C07_root_logsum_refuted` [CEFN], `C07_shared_logsum_refuted` [CEFN]
* `LogitProps.v`: `C07_gradient_partial` [CEFN]
* `UtilityProps.v`: `C07_from_data_partial` [CEFN], `C07_held_gradient_zero` [CEFN]

### C08 BHHH matrix is symmetric and positive semidefinite

*Modelled and proved how.* The bhhh accumulation: symmetric, sum of weighted outer products, hence x'Bx >= 0; each vector is the gradient of log P under the provisos of C07.

*Status:* proved. Symmetric PSD and outer product proved for all inputs; that the vector is the gradient of log P carries the C07 provisos (C08_bhhh_outer_of_gradient_partial).

* `LogitProps.v`: `C08_bhhh_symmetric_psd` [CEFN], `C08_single_choice_outer_product` [CEFN], `C08_bhhh_outer_of_gradient_partial` [CEFN]

### C09 Independence of irrelevant alternatives inside a nest

*Modelled and proved how.* Ratio of probabilities of two children of one nest as a function of their utilities only.

*Status:* proved.

* `LogitProps.v`: `C09_iia` [CEFN]

### C10 Availability and choice roll up to nests

*Modelled and proved how.* `cascade_or` / `cascade_sum` over the edge list; induction over slots: node value = or / sum over the leaves below it.

*Status:* proved.

* `LogitProps.v`: `C10_availability_cascade` [E], `C10_choice_cascade` [EF]

### C11 Utility is linear in parameters

*Modelled and proved how.* UtilityModel co/ca loops with dense data; fold invariants give the sum of terms and the derivative rows.

*Status:* proved.

* `UtilityProps.v`: `C11_utility_is_linear` [CEFN], `C11_reported_derivative` [CEFN], `C11_derivative_is_derivative` [CEFN]

### C12 Sparse and dense data give the same utilities

*Modelled and proved how.* `sparse` against `dense` on the array the rows denote; invariant on the running position.

*Status:* proved. For rows sorted by alternative; C12_unsorted_refuted shows that unsorted rows land on the wrong alternative.

* `UtilityProps.v`: `C12_sparse_equals_dense` [CEFN], `C12_same_results` [CEFN], `C12_unsorted_refuted` [CEFN]

### C13 Size (quantity) term and its derivative

*Modelled and proved how.* `q_alt`: log of the sum of exponentiated sizes times scale; derivative by Coquelicot.

*Status:* partial. Value proved; derivative proved when no free parameter occurs in two quantity terms; refuted otherwise (C13_repeated_parameter_refuted).

* `UtilityProps.v`: `C13_size_value` [CEFN], `C13_derivative_partial` [CEFN], `C13_held_derivative_zero` [CEFN], `C13_repeated_parameter_refuted` [CEFN]

### C14 Converting sparse to dense arrays keeps every value in its own case

*Modelled and proved how.* CEModel loops with the end-pointer array; explicit out-of-range accesses; invariant on the case counter.

*Status:* partial. Proved for pointers in which every case has a row (all pointers from_idce builds); refuted for empty cases.

* `CEProps.v`: `C14_sparse_to_dense_partial` [-], `C14_availability_partial` [-], `C14_pointer_forms` [-], `C14_empty_case_refuted` [-]

### C15 Case pointers delimit exactly the rows of each case

*Modelled and proved how.* Pointer construction by differences of codes; each window of pointers holds the rows of one case.

*Status:* partial. Proved when rows are sorted by case and every case id has rows; blocks hold one case each for every input; refuted for unsorted rows and unused levels.

* `CEProps.v`: `C15_blocks_have_one_case` [-], `C15_pointers_delimit_cases_partial` [-], `C15_index_from_pointers` [-], `C15_unsorted_refuted` [-], `C15_unused_level_refuted` [-]

### C16 Dissolving a sparse variable keeps its values

*Modelled and proved how.* Sparse loop of `ce_dissolve_zero_variance` and the dense branch (DenseModel: standard deviation below 1e-10).

*Status:* partial. Sparse: proved for pointers without empty cases, refuted otherwise. Dense branch: exact for constants, tolerance bound proved, refuted for small values.

* `CEProps.v`: `C16_dissolved_value_is_the_constant_partial` [-], `C16_dissolves_constants_partial` [-], `C16_empty_case_refuted` [-]
* `DenseProps.v`: `C16_dense_within_tolerance` [EFN], `C16_dense_constant` [EFN], `C16_dense_small_values_refuted` [EFN]

### C18 Standard node order is complete and puts children before parents

*Modelled and proved how.* Heap-based topological sort of tree.py modelled with the zero-indegree map; invariants: output is duplicate free, children first, complete on acyclic graphs, minimal key first.

*Status:* proved.

* `TreeProps.v`: `C18_standard_order` [-], `C18_elemental_order` [-]

### C19 A cyclic nesting structure is reported

*Modelled and proved how.* The same sort on cyclic graphs: the nodes on or above a cycle never reach indegree zero.

*Status:* partial. Refuted for the code as it is: C19_cycle_reported_refuted shows that every node on or above a cycle is silently dropped and no error is ever raised; only the acyclic half holds.

* `TreeProps.v`: `C19_cycle_reported_refuted` [-], `C19_acyclic_no_error_partial` [-]

### C20 Slot arrays describe the graph

*Modelled and proved how.* `edge_slot_arrays`, `node_slot_arrays` from the sorted nodes; TreeLogitProps instantiates the kernel theorems with slot arrays built from any well formed tree.

*Status:* proved.

* `TreeLogitProps.v`: `C20_kernel_arrays_from_graph` [-]
* `TreeProps.v`: `C20_slot_arrays` [-]

### C21 No nest or alternative is left without a parent

*Modelled and proved how.* State machine of the edit methods of NestingTree; invariant over histories.

*Status:* proved. Histories that name existing parents. The refuted theorems show why the restriction is needed (unknown parent; re-rooting on an existing child).

* `TreeProps.v`: `C21_no_orphans` [-], `C21_all_under_root` [-], `C21_explicit_link_drops_implied` [-], `C21_unknown_parent_refuted` [-], `C21_reroot_refuted` [-]

### C22 New nests get unused codes

*Modelled and proved how.* `new_node`: the code is larger than every elemental and not in the graph.

*Status:* proved.

* `TreeProps.v`: `C22_fresh_code` [-], `C22_explicit_code` [-], `C22_rejected_unchanged` [-]

### C23 Cached orders are never stale

*Modelled and proved how.* Cache cells of the lazy attributes as explicit state; invariant: a filled cell equals what would be recomputed.

*Status:* partial. Holds for the documented edit methods; refuted for suggest_elemental_order after a read, for inherited networkx bulk methods, and a stale suggestion makes reads fail.

* `TreeProps.v`: `C23_caches_fresh_partial` [-], `C23_suggest_refuted` [-], `C23_bulk_add_refuted` [-], `C23_stale_suggestion_refuted` [-]

### C25 Setting values respects held parameters and never partially applies bad input

*Modelled and proved how.* ParamModel `set_values`/`set_value` on frames with NaN and missing bounds; case analysis of every argument form, state returned also on exceptions.

*Status:* partial. Array, keyword, scalar and dict forms proved for every frame; refuted: NaN is accepted as scalar or in a dict, and a parameter given a value before the model mentions it is silently held.

* `ParamProps.v`: `C25_array_sets_free` [EF], `C25_array_sets_all` [EF], `C25_bad_array_changes_nothing` [EF], `C25_keywords` [EF], `C25_no_best_raises` [EF], `C25_scalar` [EF], `C25_dict` [EF], `C25_nan_accepted_refuted` [EF], `C25_early_set_value_holds_refuted` [EF]

### C26 Scanning a model for names preserves existing parameter settings

*Modelled and proved how.* `ensure_names` and the sort; permutation and set-order independence.

*Status:* partial. No duplicates, defaults, existing rows kept, idempotent and independent of set iteration order; refuted: rows are re-sorted, so they do not keep their order.

* `ParamProps.v`: `C26_ensure_names` [-], `C26_full_scan` [EF], `C26_order_independent` [EF], `C26_order_kept_refuted` [EF]

### C27 Locked parameters stay locked

*Modelled and proved how.* Histories of modelled calls; invariant on the row of the locked parameter.

*Status:* proved. For every history of modelled calls that do not set the parameter by name; with respect_holdfast=False it does move (C27_override_refuted).

* `ParamProps.v`: `C27_locked_stays_locked` [EF], `C27_locked_value` [-], `C27_override_refuted` [EF]

### C28 set_cap bounds every parameter

*Modelled and proved how.* `cap_row` with IEEE comparisons incl. NaN.

*Status:* partial. Proved when both bounds are present and ordered or both missing; refuted when exactly one bound is missing.

* `ParamProps.v`: `C28_cap_is_intersection_partial` [CEF], `C28_every_row` [EF], `C28_missing_bounds` [EF], `C28_one_missing_bound_refuted` [EF]

### C29 Diagnostics leave the parameters where they were

*Modelled and proved how.* `loglike_null`, `likelihood_ratio` as state transformers; state equality after the call, including the exception paths.

*Status:* partial. Restoration and value proved; refuted: stale cached null value after null values change, and a free NaN parameter makes loglike_null raise with the parameters left at null.

* `ParamProps.v`: `C29_loglike_null_restores` [EF], `C29_stale_null_refuted` [EF], `C29_nan_not_restored_refuted` [EF], `C29_likelihood_ratio_one` [EF], `C29_likelihood_ratio_all` [EF]

### C30 The best-seen parameters are really the best seen

*Modelled and proved how.* `_check_if_best` over histories with an observer log; invariant: best is the maximum of the evaluations since the last reset.

*Status:* partial. Proved for every history of the numba engine; for the cython engine only when no cross-validation fold is evaluated (refuted otherwise).

* `ParamProps.v`: `C30_best_is_best` [EF], `C30_restores_best` [EF], `C30_cython_partial` [EF], `C30_cython_folds_refuted` [EF]

### C32 BHHH estimation never ends worse than it started

*Modelled and proved how.* BhhhModel line search and loops with fuel; the likelihood is an arbitrary function, so the theorems hold for every model.

*Status:* partial. Proved for objectives that are never NaN, without jumpstart, and (simple_step_bhhh) on the full sample; refuted for NaN, jumpstart and folds.

* `BhhhProps.v`: `C32_simple_fit_climbs` [EF], `C32_move_meaning` [EF], `C32_fit_bhhh_climbs` [EF], `C32_simple_step` [EF], `C32_nan_step_accepted_refuted` [EF], `C32_jumpstart_refuted` [EF], `C32_simple_step_fold_refuted` [EF]

### C33 The log likelihood returned by estimation is that of the parameters left in the model

*Modelled and proved how.* Same loops: returned value against re-evaluation at the final state.

*Status:* partial. Proved for every run whose reported steps are all at least minimum_steplen; refuted otherwise: a failed line search keeps the failed point's log likelihood, and the fit can end worse than it started.

* `BhhhMoreProps.v`: `C33_initial_penalty` [EF], `C33_initial_penalty_numba` [EF]
* `BhhhProps.v`: `C33_returned_loglike_partial` [EF], `C33_no_worse_partial` [EF], `C33_returned_loglike_refuted` [EF], `C33_worse_than_start_refuted` [EF]

### C34 Held-fast parameters never move in estimation

*Modelled and proved how.* `propose_direction` and free-slot inverse with an arbitrary solver; held coordinates are never changed; trace of all visited values.

*Status:* proved. For every optimizer, jumpstart and any sequence of scipy evaluations, over every value vector the model is given.

* `BhhhMoreProps.v`: `C34_update_is_set_values` [-], `C34_direction_zero` [EF], `C34_simple_fit` [EF], `C34_simple_step` [EF], `C34_fit_bhhh` [EF], `C34_fit_numba` [EF], `C34_scipy` [F], `C34_jumpstart_chunks_cover` [-]

### C35 Default estimation method and settings restoration

*Modelled and proved how.* `maximize_loglike` as control flow with oracles for the optimizers; finally clause.

*Status:* partial. Method choice proved unless a minimum is +inf or a maximum is -inf (refuted); restoration proved for models that have the attributes, refuted for models that do not.

* `BhhhMoreProps.v`: `C35_default_method` [EF], `C35_infinite_minimum_refuted` [EF], `C35_given_method` [EF], `C35_restored` [EF], `C35_restored_absent_refuted` [EF], `C35_returns_loglike` [EF], `C35_method_used` [EF], `C35_default_fallback` [EF], `C35_method_used_after_start` [EF]

### C36 A constraint's function is non-negative exactly on the feasible set

*Modelled and proved how.* ConsModel: each constraint class against its set of feasible points; scale sign and zero cases.

*Status:* partial. Function, linear form, gradient and binding proved for linked constraints with positive ratios and a denominator on its declared side; refuted: one-sided ratios always binding, negative ratios inverted, zero ratio raises, same parameter twice, links stale after the frame grows.

* `ConsProps.v`: `C36_function_sign_is_the_inequality_partial` [EF], `C36_linear_form_agrees` [EF], `C36_linear_form_same_parameter_refuted` [EF], `C36_jacobian_is_exact` [EF], `C36_binding_order` [EF], `C36_binding_fixed` [EF], `C36_binding_ratio` [EF], `C36_one_sided_ratio_always_binding_refuted` [EF], `C36_one_sided_ratio_note_and_gradient_refuted` [EF], `C36_negative_ratio_inverted_refuted` [EF], `C36_zero_ratio_raises_refuted` [EF], `C36_stale_link_refuted` [EF]

### C38 The constraint list holds no duplicates

*Modelled and proved how.* List operations over histories; invariant: no two entries equal in the sense of the class.

*Status:* partial. Every history of append/insert/set/delete/reverse proved; refuted: whole-list assignment keeps duplicates, reverse() does nothing, insert at a negative or too large index does not link the new constraint.

* `ConsListProps.v`: `C38_never_two_equal_partial` [EF], `C38_inserted_is_present` [EF], `C38_insert_position` [EF], `C38_appended_is_linked` [EF], `C38_delete_only_that` [-], `C38_replace_only_that` [EF], `C38_assignment_keeps_duplicates_refuted` [EF], `C38_reverse_does_nothing_refuted` [EF], `C38_replace_by_duplicate_ignored_refuted` [EF], `C38_negative_insert_links_another_refuted` [EF], `C38_insert_past_end_raises_refuted` [EF]

### C39 Covariance with fixed parameters and binding constraints

*Modelled and proved how.* CovModel with an arbitrary inverse on the free block; constraint correction algebra; binding bounds.

*Status:* proved.

* `CovProps.v`: `C39_held_parameters_zero` [F], `C39_inverse_of_free_block` [EF], `C39_covariance_psd` [EF], `C39_robust_sandwich` [EF], `C39_binding_constraints` [EF], `C39_no_binding` [EF], `C39_reported` [EF], `C39_binding_order` [EF]

### C40 Bounds penalty is non-negative, monotone and vanishes inside

*Modelled and proved how.* softplus exact real analysis: positivity, monotonicity, derivative, limits.

*Status:* partial. Size of the penalty, exact gradient below the switch and an error bound above it proved for every sharpness; refuted: the penalty jumps down at the switch, so it is neither continuous nor monotone there.

* `PenaltyProps.v`: `C40_softplus_tracks_violation` [CEFN], `C40_softplus_small_inside` [CEFN], `C40_softplus_increasing_partial` [CEFN], `C40_not_monotone_at_switch_refuted` [CEFN], `C40_discontinuous_at_switch_refuted` [CEFN], `C40_bounds_gradient_exact_partial` [CEFN], `C40_bounds_gradient_exact_when_feasible` [CEFN], `C40_bounds_gradient_error` [CEFN], `C40_penalty_not_positive` [CEFN], `C40_penalty_small_when_feasible` [CEFN], `C40_constraint_gradient_exact_partial` [CEFN], `C40_fixed_bound_unsupported_refuted` [CEFN]

### C41 Linear function algebra preserves meaning

*Modelled and proved how.* LinModel: Python operators dispatched by class; text as tokens with a parser; value of the built object = value of the expression.

*Status:* partial. Every expression Python can build has the arithmetic value, except four trapped shapes (each refuted): 0 - parameter, "00" + data, parameter * component with a parameter, negative base of a power; and the null parameter must be 1 and boolean texts must be honest (both refuted otherwise).

* `LinProps.v`: `C41_meaning_partial` [EF], `C41_value_unique` [EF], `C41_zero_minus_parameter_refuted` [EF], `C41_double_zero_refuted` [EF], `C41_parameter_times_component_refuted` [EF], `C41_negative_base_refuted` [EF], `C41_null_parameter_refuted` [EF], `C41_boolean_product_refuted` [EF]

### C42 Parameter arithmetic evaluates and prints faithfully

*Modelled and proved how.* Parameter arithmetic: value and printed form re-parsed.

*Status:* partial. Values proved under the conditions of C41; the printed form proved when no sum/difference is subtracted and no product/quotient divided by (both refuted otherwise: _parenthize_repr omits the parentheses).

* `LinProps.v`: `C42_value_partial` [EF], `C42_printed_partial` [EF], `C42_prints` [EF], `C42_printed_subtraction_refuted` [EF], `C42_printed_division_refuted` [EF]

### C43 Latent class probability is the class-weighted mixture

*Modelled and proved how.* RangeModel/LcModel: the case range, persisted arrays by row, `probability` as a loop over class keys with its KeyError; value shown equal to the mixture; gradient by Coquelicot `is_derive` (product and log rules).

*Status:* partial. Mixture, distribution, log likelihood and gradient proved for every valid case range and every set of classes keyed 1..K; refuted: any other class keys raise KeyError, and a negative stop other than -1 raises IndexError although documented.

* `LcProps.v`: `C43_probability_is_mixture` [EF], `C43_distribution` [EF], `C43_loglike` [CEFN], `C43_gradient` [CEFN], `C43_class_names_refuted` [EF], `C43_negative_stop_refuted` [F]

### C44 Model groups add up

*Modelled and proved how.* GroupModel: group frame and member frames as separate states; `unmangle` with its recursion through `_frame_values_have_changed` bounded by an explicit call depth (proved sufficient: more than the number of members); loop invariant over members, refinement of each member to the frame a scan would give; pandas Series addition by label with NaN as missing; derivative of the sum with Coquelicot.

*Status:* partial. Parameters, log likelihood, gradient by name (also as the derivative of the sum), n_cases and weights proved for every group whose members are well formed; refuted: a parameter held in a member is not set there, a NaN gradient is hidden by another member, a parameter of no member (left behind by deleting one) raises KeyError, values set by name before the first use are lost.

* `GroupProps.v`: `C44_parameters` [EF], `C44_loglike` [EF], `C44_totals` [EF], `C44_delete_and_insert` [EF], `C44_gradient` [EF], `C44_gradient_is_derivative` [CEFN], `C44_held_in_member_is_not_set_refuted` [EF], `C44_nan_gradient_is_hidden_refuted` [EF], `C44_parameter_of_no_member_refuted` [EF], `C44_set_before_first_use_is_lost_refuted` [EF]

### C45 Latent class BHHH is the sum of outer products of case gradients

*Modelled and proved how.* LcModel kernel with explicit buffer identities (`nl_dll_bhhh` three buffers, `lc_dll_bhhh` two): induction over cases, alternatives and parameters.

*Status:* partial. Both kernels give the exact gradient and the nested logit kernel the sum of outer products; for the latent class model the returned matrix is characterised exactly, and the claim is refuted: one buffer is passed twice, which makes it four times too large for unweighted single choices.

* `LcProps.v`: `C45_gradient` [EF], `C45_nested_logit_bhhh` [EF], `C45_latent_class_bhhh_partial` [EF], `C45_latent_class_bhhh_fourfold_refuted` [EF]

### C46 Autoscaling weights changes only the normalization

*Modelled and proved how.* WtModel over case weights (NaN explicit); likelihood invariance of the rescaling.

*Status:* partial. Proved for non-negative choices, a nonzero scale and any history of calls when weights are present; refuted: unscale does not restore embedded weights, scale_weights without weights multiplies the log likelihood, casewise values are not normalised.

* `WtProps.v`: `C46_mass_unchanged` [EF], `C46_loglike_unchanged` [EF], `C46_average_one` [EF], `C46_totals` [EF], `C46_norm` [EF], `C46_again` [EF], `C46_unscale` [EF], `C46_unscale_embedded_refuted` [EF], `C46_total_weight` [EF], `C46_history` [EF], `C46_scale_without_weights_refuted` [EF], `C46_casewise_refuted` [EF]

### C47 Splitting partitions the cases

*Modelled and proved how.* SplitModel: cumulative shares, xor of neighbouring columns; exactly one part per case.

*Status:* partial. Partition, sizes, order and alternatives proved for every split; refuted: the parts lose the weight normalization, and idca parts keep the old case codes so a nested split selects wrong rows.

* `SplitProps.v`: `C47_each_case_once` [EF], `C47_equal_splits` [EF], `C47_sizes` [EF], `C47_simple_in_order` [EF], `C47_shuffle_keeps_rows` [EF], `C47_part_rows` [EF], `C47_alternatives_follow` [EF], `C47_renumbered` [EF], `C47_nested_idca_refuted` [EF], `C47_loglike_adds` [EF], `C47_normalization_lost_refuted` [EF], `C47_single_part_raises` [-]

### C48 Sparse row lookup is exact

*Modelled and proved how.* CeModel row map: last row wins, lookups return the row; array_to_ce.

*Status:* partial. Lookup proved for every index; values land on their own row when no pair is repeated and every case has rows; refuted: repeated pairs leave zeros, an unused last alternative makes array_to_ce raise, data_co_as_ce fails for more than one variable, a case without rows shifts the values of later cases.

* `CeProps.v`: `C48_lookup` [-], `C48_lookup_exact` [-], `C48_every_row` [-], `C48_own_row_partial` [-], `C48_array_own_row_partial` [-], `C48_repeated_pair_refuted` [-], `C48_unused_alternative_raises_refuted` [-], `C48_co_as_ce_refuted` [-], `C48_missing_case_shifts_refuted` [-], `C48_every_case_present_partial` [-], `C48_availability_from_rows` [-], `C48_ce_as_ca` [-]

### C50 The doctor's repairs fix what they report

*Modelled and proved how.* DocModel stages as functions on the data; each repair establishes its condition; later stages preserve earlier ones (or refutation).

*Status:* partial. Proved for non-negative choices of the shape of the availability (and for wide choices with -): reports are exact, repairs fix what they report, healthy data unchanged, a second run finds nothing; refuted: + leaves chosen zero-quantity alternatives, + raises for wide choices, unweighted data are not checked, * divides by zero when no weight is left.

* `DocProps.v`: `C50_unavailable_partial` [EF], `C50_zero_quantity_partial` [EF], `C50_nothing_chosen` [EF], `C50_star_keeps_mass_partial` [EF], `C50_repaired_partial` [EF], `C50_healthy_unchanged` [EF], `C50_report_only` [EF], `C50_reported` [EF], `C50_second_run_partial` [EF], `C50_plus_leaves_zero_quantity_refuted` [EF], `C50_unweighted_not_checked_refuted` [EF], `C50_star_no_weight_left_refuted` [EF], `C50_nest_available` [-], `C50_wide_minus` [EF], `C50_wide_plus_raises_refuted` [EF], `C50_wide_without_model_raises_refuted` [EF]

### C51 Piecewise legs add up to the variable

*Modelled and proved how.* PieceModel over reals; clip algebra.

*Status:* proved. For break points in increasing order; C51_unsorted_breaks_refuted shows that unsorted break points do not add up.

* `PieceProps.v`: `C51_legs_add_up` [EF], `C51_within` [EF], `C51_only_consecutive` [EF], `C51_slope` [EF], `C51_every_point_has_a_segment` [EF], `C51_equal_parameters` [EF], `C51_infer_roundtrip` [EF], `C51_infer_sound` [EF], `C51_unsorted_breaks_refuted` [EF]

### C52 Bit fields do not overlap

*Modelled and proved how.* BitsModel masks over Z; bitwise reasoning.

*Status:* proved. Up to 63 bits in total; C52_overflow_refuted shows what happens beyond.

* `BitsProps.v`: `C52_masks` [-], `C52_disjoint` [-], `C52_all_bits` [-], `C52_pack_extract` [-], `C52_min_masks` [-], `C52_overflow_refuted` [-]

### C53 Systematic alternative codes identify alternatives

*Modelled and proved how.* Codes as packed digits; injectivity, 62-bit hypothesis.

*Status:* partial. Unique codes proved, also across several frames coded together (same code iff same categories and ordinal; every frame gets its codes); masks recover the category except for the sentinel cases; refuted: category counts that are powers of two share bits, more than 63 bits overflow, frames coded together record only the last one's codes, two codes per alternative.

* `BitsProps.v`: `C53_codes_identify` [-], `C53_unique_in_case` [-], `C53_masks_recover_partial` [-], `C53_power_of_two_refuted` [-], `C53_overflow_refuted` [-], `C53_recode_same_frame` [-], `C53_recode_other_frame_refuted` [-], `C53_frames_coded_alike` [-], `C53_frames_all_coded` [-], `C53_multiple_codes_lost_refuted` [-]

### C54 label_to_index maps each value to its label's position

*Modelled and proved how.* LabelModel digitize and fancy indexing.

*Status:* partial. Proved for labels in increasing order and values not above them all; exact characterisation for unsorted labels; refuted: unsorted labels are looked up at the wrong position, values above all labels are out of range or raise, duplicates raise NameError.

* `LabelProps.v`: `C54_sorted` [-], `C54_above_all_refuted` [-], `C54_unsorted` [-], `C54_unsorted_right_iff` [-], `C54_unsorted_refuted` [-], `C54_unsorted_above_refuted` [-], `C54_duplicates_raise` [-]

### C55 Estimation terminates

*Modelled and proved how.* Explicit fuel bounds for every loop of the optimizers; a diverging schedule refutes the part that does not hold.

*Status:* proved. For every objective when the minimum step length is positive; C55_zero_minimum_steplen_refuted shows why it must be.

* `BhhhMoreProps.v`: `C55_simple_fit_terminates` [EF], `C55_fit_bhhh_terminates` [EF], `C55_fit_numba_terminates` [EF], `C55_zero_minimum_steplen_refuted` [EF]

### C56 Nests built from systematic alternatives are a partition

*Modelled and proved how.* magic_nesting edges: each code has one parent per level, parents determined by the masked code.

*Status:* partial. Edges, one parent each, shared nests proved up to 62 bits when no category count fills its mask; self loop refuted otherwise.

* `BitsProps.v`: `C56_edges` [-], `C56_one_parent` [-], `C56_same_nest` [-], `C56_parent_name` [-], `C56_self_loop_refuted` [-]

### C57 Category recodings are exact

*Modelled and proved how.* One-hot and unique-id recodings; round trips.

*Status:* partial. One-hot columns, compression and ids proved for all inputs; refuted: drop=True drops nothing and a one-column frame always fails.

* `LabelProps.v`: `C57_one_hot` [-], `C57_empty_raises` [-], `C57_compress_expand` [-], `C57_ids` [-], `C57_expansion_inplace` [-], `C57_drop_keeps_column_refuted` [-], `C57_single_column_refuted` [-]

### C58 Case-indexed parts stay aligned

*Modelled and proved how.* Setters with/without sorting; positions of a case in each part.

*Status:* partial. Case data, choices and availability proved aligned for any row order; weights named as a case column only when the ids are increasing, and refuted in every other case.

* `CeProps.v`: `C58_aligned_partial` [-], `C58_weights_aligned_partial` [-], `C58_weights_misaligned_refuted` [-]

### C59 Cracking idca data loses nothing

*Modelled and proved how.* crack_idca: reconstruct the original column from the two parts.

*Status:* partial. Proved for all cells that are not NaN; refuted: NaN cells of a moved column are replaced by a number.

* `CeProps.v`: `C59_columns` [-], `C59_kept_columns` [-], `C59_moved_columns_partial` [-], `C59_one_row_per_case` [-], `C59_nan_cell_lost_refuted` [-]

### C61 Latent class parts share one set of parameters

*Modelled and proved how.* LcSyncModel: frames as heap objects, parts hold references; `unmangle`, `sync_frames`, `set_frame` as state transformers; invariant over the scan loop, then over arbitrary later histories.

*Status:* partial. Proved when no part by itself knows all the parameters; refuted: a complete frame given to the latent class model is shared with no part, and parameters introduced after the first join never appear.

* `LcSyncProps.v`: `C61_set_value_reaches_all_parts_partial` [EF], `C61_first_value_wins_partial` [EF], `C61_given_frame_is_not_shared_refuted` [EF], `C61_new_parameters_never_appear_refuted` [EF]

### C62 Parallel evaluation does not depend on the schedule

*Modelled and proved how.* SchedModel: memory of cells, one instruction per store, threads as instruction lists, inductive `interleaving`; ownership of cells by thread gives non-interference (any interleaving agrees with the thread running alone on the cells it owns); then the effect of one case program, induction over the cases of a thread, and permutation of the case range.

*Status:* proved. Multinomial logit kernel, exact numbers; persisted quantity arrays and a stop beyond the last case are not modelled. The documented meaning of negative stops other than -1 is refuted (every negative value means all cases); this is stated separately.

* `SchedProps.v`: `C62_totals` [CEFN], `C62_rows` [CEFN], `C62_dropped_rows` [CEFN], `C62_deterministic` [CEFN], `C62_leave_and_keep` [CEFN], `C62_folds_add_up` [CEFN], `C62_gradient_is_derivative` [CEFN], `C62_negative_stop_refuted` [CEFN]

### C63 The Cython engine's nested and cross-nested logit

*Modelled and proved how.* NetModel: the loops of nl.pyx over edges with allocations, utilities with minus infinity, derivatives with NaN; net_dag (NetSpec) is an acyclic network in slot order; logsums by induction over slots, probabilities by induction from the root with a telescoping sum over edges; the gradient by projecting the edge loop on one parameter, then Coquelicot derivatives. NetTreeModel/NetBridge: the arrays of every rooted acyclic graph form a net_dag, allocations sum to one, and on a tree (single parents, so all allocations 1) both kernels satisfy the same recursions; equal gradients by uniqueness of the derivative. NetEx2/NetEx3: concrete networks, and concrete wrong gradients.

*Status:* partial. Logsums, probabilities, log likelihood, allocations, translation and agreement with the numba engine proved for every network; the gradient is proved under grad_ok (a free logsum parameter is not the root's, not used twice on a path, its nest has one parent, and allocated children of its nest have logsum parameter 1). Outside, the reported gradient is wrong: C63_root_logsum_refuted, C63_two_parent_nest_refuted; an unavailable child of a nest with a free logsum parameter gets a NaN derivative of its probability (C63_unavailable_dprob_nan_refuted).

* `NetEx2Props.v`: `C63_root_logsum_refuted` [CEFN]
* `NetEx3Props.v`: `C63_two_parent_nest_refuted` [CEFN]
* `NetExProps.v`: `C63_arrays_from_graph` [EF], `C63_engines_agree` [CEFN], `C63_engines_agree_gradient_partial` [CEFN]
* `NetProps.v`: `C63_logsum` [CEFN], `C63_probabilities` [CEFN], `C63_none_available` [CEFN], `C63_loglike` [CEFN], `C63_unavailable_dprob_nan_refuted` [CEFN], `C63_gradient_partial` [CEFN], `C63_dutility_dprobability_partial` [CEFN], `C63_translation` [CEFN], `C63_translation_gradient_partial` [CEFN]

### C64 The compiled engine's utilities

*Modelled and proved how.* CyuModel: the linked term arrays and the loops of _compute_(d_)utility_onecase over alternatives, with row lookup through the reverse map, minus infinity, log of a zero size, quantity output and overflow guard; each loop is shown to touch one alternative only and its steps to equal those of the numba model, so the closed forms of C11-C13 apply; composition with the nested logit kernel through C63_translation (and, for the gradient, uniqueness of the derivative).

*Status:* partial. Utilities, quantities, overflow guard, row lookup, rereading of parameters, zero quantities and engine agreement proved for all data (positive sizes). Derivatives proved except for a parameter occurring in two quantity terms, where the code is wrong (C64_repeated_parameter_refuted); nested logit gradient under the conditions of C63. link_to_model_parameters leaves the scale of the quantity stale (C64_stale_scale_refuted); an available alternative without a row has minus infinite utility but a non-zero derivative (C64_missing_row_derivative_refuted).

* `CyuExProps.v`: `C64_engines_agree` [CEFN], `C64_engines_agree_sparse` [CEFN], `C64_ce_rows` [F], `C64_row_order` [CEFN], `C64_stale_scale_refuted` [CEFN], `C64_repeated_parameter_refuted` [CEFN], `C64_missing_row_derivative_refuted` [CEFN]
* `CyuNetProps.v`: `C64_nested_from_data` [CEFN], `C64_nested_gradient_partial` [CEFN]
* `CyuProps.v`: `C64_utility` [CEFN], `C64_no_overflow` [CEFN], `C64_same_utilities` [CEFN], `C64_quantity` [CEFN], `C64_derivative_partial` [CEFN], `C64_held_derivative_zero` [CEFN], `C64_unavailable_derivative_zero` [CEFN], `C64_reread` [EFN], `C64_reread_after_link` [EFN], `C64_fresh_link` [EFN], `C64_zero_quantity` [CEFN], `C64_not_flagged` [CEFN]

### C60 A constraint written as text says what the text says

*Modelled and proved how.* CstrModel: a backtracking regular expression matcher with captures, the ten patterns in order, float() and the fraction notation as functions on characters; CstrSpec: numerals, sentences and their truth at parameter values as inductive definitions. The matcher is proved sound and complete for a relational semantics; erasing blanks shows that a text splits in one way, which decides which pattern it meets.

*Status:* partial. Reading and non-misreading proved for all texts of the documented forms whose parameter names are not made of digits with at most one e/E. Outside it the code is refuted: a name such as E1 on the right of < raises (C60_exponent_name_refuted), a name of digits is taken for a number (C60_digit_name_refuted); ratios on the right, downward chains and negative fractions are refused. Linked constraints carry the same restriction as C36 (positive ratios). Text beyond Latin-1 and rounding of numerals are not modelled.

* `CstrProps.v`: `C60_reads_what_it_says_partial` [EF], `C60_fixed_bounds` [EF], `C60_orderings_and_ratios` [EF], `C60_never_misread` [EF], `C60_unambiguous` [EF], `C60_numbers` [EF], `C60_numbers_only` [EF], `C60_function_follows_text_partial` [EF], `C60_append_text` [EF], `C60_unread_text_changes_nothing` [EF], `C60_ordering_string` [EF], `C60_two_readers_agree` [EF], `C60_exponent_name_refuted` [EF], `C60_digit_name_refuted` [EF], `C60_ratio_on_the_right_refuted` [EF], `C60_downward_chain_refuted` [EF], `C60_negative_fraction_refuted` [EF]

### C65 Reading a table of cases and alternatives keeps every row in its own cell

*Modelled and proved how.* IdcaModel: the two-level index as levels and codes, relabelling with pandas' checks, the xarray conversion (unused levels, last write wins, code -1 is the last position, promotion of types), dissolving with missing values skipped, casts back, availability, the fill loops with their KeyErrors. IdcaRead gives the result in closed form; the theorems read off entries by labels. Row order: an injective renumbering of rows.

*Status:* partial. Placement, availability, row order, accepted tables and fill values (single, or by data type) proved for all tables and options. Refuted: a fill value is also written into the availability (C65_fill_makes_available_refuted), a mapping of variables raises KeyError, an availability name of one's own cannot be combined with filling, booleans are true where there is no row, a label missing from the names overwrites the last alternative, spare names raise, unsigned codes are replaced, the caller's index is changed so a second reading loses the names, alts_mapping ignores the names attached, and a given availability of ones is dissolved. A missing float in a dissolved variable takes the value of its case (as in C59).

* `IdcaProps.v`: `C65_each_row_in_its_cell` [-], `C65_no_other_cases` [-], `C65_availability` [-], `C65_fill_value` [-], `C65_fill_makes_available_refuted` [-], `C65_fill_never_fails` [-], `C65_fill_by_variable_refuted` [-], `C65_own_availability_name_refuted` [-], `C65_absent_pairs` [-], `C65_absent_alternatives_chosen_refuted` [-], `C65_row_order` [-], `C65_accepted_exactly` [-], `C65_names_must_match` [-], `C65_unlisted_name_refuted` [-], `C65_spare_name_refuted` [-], `C65_unsigned_codes_refuted` [-], `C65_second_reading_refuted` [-], `C65_integer_table_untouched` [-], `C65_mapping_ignores_names_refuted` [-], `C65_mapping_of_constructor` [-], `C65_given_availability_refuted` [-], `C65_fill_by_type` [-]

### C66 What a model answers does not depend on what it was asked before

*Modelled and proved how.* SessModel: a session = values, intensity and a heap of work arrays; every call runs the kernel under its flags over the rows of the slice and returns either a view (generation, field, columns, rows) or a copy. SessSpec: `answer`, a function of values, intensity and cases only. By induction over histories the transcript equals the list of expected answers; what a view shows later is followed through the rows later calls rewrite. Slices: Python slice.indices arithmetic against the set of selected positions.

*Status:* partial. Answers proved independent of history, for all histories, slices and penalties; parts add up; labels proved right. Refuted: probability, utility and logsums return views that later calls at other values rewrite (C66_held_array_overwritten_refuted); quantity rewrites an array returned by utility; the defaults documented for slices leave out the last case; leave_out/keep_only/subsample are ignored; a penalty is counted once per case, not once, and squares the weights in bhhh; quantity is one, not zero, for an alternative without a row in sparse data; labelled quantity raises for a slice, probability as a DataArray and the idce form always raise.

* `SessProps.v`: `C66_answers_ignore_history` [CEFN], `C66_same_question_same_answer` [CEFN], `C66_settings_follow_operations` [CEFN], `C66_loglike_fits_probability` [CEFN], `C66_probability_rows_sum_to_one` [CEFN], `C66_held_probabilities` [CEFN], `C66_held_utilities` [CEFN], `C66_probabilities_spared` [CEFN], `C66_old_arrays_are_safe` [CEFN], `C66_copies_never_change` [CEFN], `C66_held_array_overwritten_refuted` [CEFN], `C66_quantity_overwrites_utility_refuted` [CEFN], `C66_slice_selects` [-], `C66_slice_valid` [-], `C66_slice_reversed` [-], `C66_slice_rows` [CEFN], `C66_parts_add` [CEFN], `C66_interleaved_slices_share` [-], `C66_cut_shares` [-], `C66_documented_defaults_refuted` [-], `C66_leave_out_ignored_refuted` [CEFN], `C66_penalty_counts_once_per_case` [CEFN], `C66_zero_penalty_squares_weights_refuted` [CEFN], `C66_quantity_is_size` [CEFN], `C66_absent_quantity_refuted` [CEFN], `C66_frames_are_labelled_rightly` [CEFN], `C66_quantity_slice_refuted` [CEFN], `C66_probability_dataarray_refuted` [CEFN], `C66_idce_refuted` [CEFN]

### C67 Changes to a model take effect at the next evaluation

*Modelled and proved how.* TouchModel: a world of function objects, models and data trees; 38 operations, each as the code does it, including whom it tells; unmangle/reflow/compile with positions and prepared flows reused by name; errors leave the state half changed. TouchSpec: `wanted`, what the kernel should be given, by names and expressions only, from the present settings; `heard`, the operations the model is told of. Invariant (TouchProofs, TouchSteps): whatever is compiled is what would be compiled now, function objects are owned by the one model that holds them; kept by every heard operation, hence answer = wanted after every session. Silent operations are refuted one by one on concrete sessions.

*Status:* partial. Proved for all sessions whose changes the model is told of, for any number of models; a forced unmangle repairs any state. Refuted for changes that are not told: weight, deleting choice_co_vars, choice_any, availability_any, availability_ca_var = None over a dict, dicts edited in place (also when assigned again), remove_data/remove_param, functions reached through values(), half-applied refused assignments, node attributes, data changed inside a tree, function objects shared by two models; m.dataset = d makes evaluation fail. Flow names collide: other expressions then give the old data or an error (C67_flow_names_refuted). Constraints keep positions: a new parameter shifts them (C67_constraint_moves_refuted), a refused one stays. remove_unused_parameters can lose every value (C67_remove_unused_refuted).

* `TouchProps.v`: `C67_changes_take_effect` [CEF], `C67_nothing_compiled` [CF], `C67_force_repairs` [CF], `C67_evaluation_keeps_settings` [CF], `C67_set_value` [CEF], `C67_settings_are_stored` [EF], `C67_assigned_functions` [CEF], `C67_assigned_entries` [CEF], `C67_assigned_dict` [CEF], `C67_edited_functions` [CEF], `C67_remove_unused` [CEF], `C67_constraints_apply_to_names` [CEF], `C67_constraint_added` [EF], `C67_sorted_frame` [CEF], `C67_frame_and_constraints_stored` [EF], `C67_weight_unheard_refuted` [EF], `C67_weight_cleared_unheard_refuted` [EF], `C67_choice_unheard_refuted` [EF], `C67_availability_unheard_refuted` [EF], `C67_dicts_unheard_refuted` [EF], `C67_dict_assigned_again_unheard_refuted` [EF], `C67_functions_unheard_refuted` [EF], `C67_refused_assignment_unheard_refuted` [EF], `C67_node_parameter_unheard_refuted` [EF], `C67_new_data_unheard_refuted` [EF], `C67_dataset_refuted` [EF], `C67_shared_function_refuted` [EF], `C67_flow_names_refuted` [EF], `C67_constraint_moves_refuted` [EF], `C67_refused_constraint_refuted` [EF], `C67_scale_without_quantity_refuted` [EF], `C67_parameter_None_refuted` [EF], `C67_remove_unused_refuted` [EF]

### C68 Each alternative's data goes to its own node

*Modelled and proved how.* AltsModel: data arrays tabulated in the order of the data, slots and labels in the order of the graph, composed with the array builders of TreeModel and the kernel of UtilityModel/LogitModel. AltsSpec: the nested logit equations on codes, with no positions. Proved through the bridge of C20 and the closed forms of C03/C06/C11; the reference is shown unique; the default graph is computed in closed form.

*Status:* partial. Proved: the exact answer for every order (C68_answers: each node carries the data standing at its position); right for every node when the orders agree (sorted codes, suggested order, or data without alternatives); multinomial logit right position by position and in log likelihood in any order. Refuted: nested models with another order get the log likelihood of other alternatives; column labels are the sorted codes whatever the order of the data; data for other codes, equal in number, is accepted; an unknown choice code counts as no choice. Missing: single-alternative broadcast, sparse idca rows, Cython engine.

* `AltsProps.v`: `C68_reference_unique` [CEFN], `C68_answers` [CEFN], `C68_evaluates` [CEFN], `C68_stops` [CEFN], `C68_own_data` [CEFN], `C68_sorted_alternatives` [-], `C68_suggested_order` [-], `C68_data_without_alternatives` [-], `C68_mnl_any_order` [CEFN], `C68_default_graph` [CEFN], `C68_default_labels` [CEFN], `C68_root_code_clash` [CEFN], `C68_unknown_choice_refuted` [CEFN], `C68_nested_order_refuted` [CEFN], `C68_labels_refuted` [CEFN], `C68_other_alternatives_refuted` [CEFN]

### C69 Feasibility is checked and enforced as stated

*Modelled and proved how.* FeasModel: the check, the bounds and constraints passed to each scipy method, and BHHH (BhhhModel) run with this check. FeasSpec: the feasible region by the documented inequalities of ConsSpec, and what a scipy method accepts. Proved from the exactness of constraint functions and linear forms (ConsModel), and by induction over the BHHH loop.

*Status:* partial. The check, its messages, what every scipy method is told and the default method proved for all frames and constraints; a successful BHHH run is feasible or has zero penalty. Refuted: BHHH with the default penalty intensity 0 walks out of the bounds and reports success (C69_success_infeasible_refuted); COBYLA is not given the bounds, the other methods not the constraints; NaN bounds are never violated; a constraint linked before the frame changed checks other parameters.

* `FeasProps.v`: `C69_check_exact` [EF], `C69_check_without_penalty` [EF], `C69_message_true` [EF], `C69_solver_problem` [EF], `C69_solver_exact` [EF], `C69_solver_keeps_feasible` [EF], `C69_default_method` [EF], `C69_success_is_feasible` [EF], `C69_success_infeasible_refuted` [EF], `C69_cobyla_ignores_bounds_refuted` [EF], `C69_constraints_not_passed_refuted` [F], `C69_nan_passes_refuted` [EF], `C69_stale_constraint_refuted` [EF]

### C70 The reported standard errors, t statistics and notes are what they say

*Modelled and proved how.* StatModel: the columns written into the frame, row by row, from the matrices of CovModel and the constraints of ConsModel. StatSpec: square roots, t statistics and the meaning of notes. Proved row by row for all tables; the bound case composed with C39_reported, likelihood ratios with C29.

*Status:* partial. Standard errors, t statistics, unconstrained and robust columns, notes and likelihood ratios proved for all tables. Refuted: without constraints or bounds a held parameter gets standard error 0 and an infinite t statistic (C70_held_looks_significant_refuted); notes of an earlier estimation stay when nothing binds; robust statistics ignore binding constraints; at a bound equal to the null value the standard error is 0 and t NaN; a model without bhhh gets robust standard error 0. Missing: rounding, the over-specification warning.

* `StatProps.v`: `C70_values_kept` [EFN], `C70_standard_errors` [EFN], `C70_unconstrained` [EFN], `C70_constraints_never_widen` [EFN], `C70_held` [EFN], `C70_notes` [EFN], `C70_notes_true` [EF], `C70_at_bound` [EFN], `C70_likelihood_ratios` [EF], `C70_held_looks_significant_refuted` [EFN], `C70_quiet_keeps_notes` [EFN], `C70_note_stale_refuted` [EFN], `C70_robust_ignores_binding_refuted` [EFN], `C70_null_at_bound_refuted` [EFN], `C70_no_bhhh_refuted` [EFN]

### C71 The choice and availability summary

*Modelled and proved how.* SumModel: choice_avail_summary line by line over the cascades of LogitModel, the pandas alignment by position or by label and the numpy broadcasting of the weights. SumSpec: counts over the cases. Proved for all data; nests by C10_choice_cascade and C10_availability_cascade.

*Status:* partial. Counts, totals and the column of unavailable choices proved for all unweighted data and trees. Refuted: with a tree the total of the unavailable choices is not their sum (C71_not_available_total_refuted); weights are lined up with the alternatives instead of the cases, so the summary raises or shows wrong numbers under wrong labels (C71_weights_*); data without choices or availability raises; the tree version ignores the codes of the data.

* `SumProps.v`: `C71_multinomial` [EF], `C71_total_is_cases` [EF], `C71_chosen_but_not_available` [EF], `C71_nested` [EF], `C71_nested_not_available` [EF], `C71_not_available_total_refuted` [EF], `C71_incomplete_data_refuted` [EF], `C71_weights_raise_refuted` [EF], `C71_weighted_not_available_raises_refuted` [EF], `C71_weights_misplaced_refuted` [EF], `C71_labels_by_position_refuted` [EF]

### C72 A saved and restored model gives the same answers

*Modelled and proved how.* PickleModel: __getstate__ and __setstate__ as a record of settings taken from, and assigned to, the models of TouchModel (C67), with fresh function objects, then unmangle(True). The answer wanted depends on the settings alone (alike_wanted); the session invariant of C67 holds with one model more after loads (loads_inv), so every later session is covered by C67.

*Status:* partial. Proved for every state of every session: all settings and values come back, the restored model given the data answers as the original, and both live on independently (C72_lives_on). Refuted: constraints are not saved, so the penalty is lost (C72_constraints_lost_refuted); copy() raises for a model without a data service, as every model on a datatree is; Model.load hands the file name to pickle.load, so it never gives a model but from a workbook. Missing: models with DataFrames, cached results and titles; that pickle and gzip give back what went in is assumed.

* `PickleProps.v`: `C72_restored` [CF], `C72_same_answers` [CEF], `C72_same_as_original` [CEF], `C72_lives_on` [CEF], `C72_constraints_lost_refuted` [EF], `C72_copy_refuted` [EF], `C72_copy` [F], `C72_load_refuted` [-]

### C73 The ordered parameter table shows every parameter once, in its place

*Modelled and proved how.* TableModel: pfo with its lists and sets of parameters not yet placed, the ordering setters, the cascade of marks, the joint index and cells; TableSpec: the first pattern that matches, before, stars. The loop over categories is shown equal to a loop over patterns, each of which takes what matches (assign), from which a permutation, the categories and strong sortedness follow by induction.

*Status:* partial. One row for each parameter, its category, the order of rows, the stars and the joint table proved for all orderings, frames and statistics; stars of t and of likelihood ratios agree but within 0.0002 of a threshold (C73_marks_agree). Refuted: two models of one title get one column with mixed values (C73_same_title_refuted). Missing: number formatting; patterns are an abstract matching test; the log likelihood and rho-squared rows of the joint summary.

* `TableProps.v`: `C73_ordered_table` [-], `C73_one_place` [-], `C73_no_ordering` [-], `C73_ordering` [-], `C73_significance` [EF], `C73_marks_agree` [EFN], `C73_joint_rows` [-], `C73_joint_cells` [-], `C73_same_title_refuted` [-]

### C74 Asking a model for values answers every part with its own value

*Modelled and proved how.* PvalModel: pvalue as a function of the model (rows in the frame, rows that a scan would add) to the model afterwards and an answer or exception; expressions raise at the first missing name. PvalSpec: what an expression means and the answer wanted, as relations. One invariant over the nesting (all_good) gives answers, exceptions and that a scanned model does not change; the wanted answer is unique (C74_one_answer).

*Status:* partial. Proved for all nestings and expressions at every model that has been scanned, and at any model when asked by plain names. Refuted: a reference (P.b) is looked up before the model is scanned, so it raises KeyError where the plain name gives the value, and the answer depends on what was asked before (C74_reference_refuted); a list in a list raises TypeError (C74_nested_list_refuted); a dict without the name ends a search through several sources (C74_dict_source_refuted). Missing: formatted texts, zero divisors, the old classes of roles.py.

* `PvalProps.v`: `C74_answers` [EF], `C74_raises` [EF], `C74_always` [EF], `C74_one_answer` [EF], `C74_plain` [EF], `C74_name_settles` [EF], `C74_reference_refuted` [EF], `C74_nested_list_refuted` [EF], `C74_first_model` [-], `C74_dict_source_refuted` [F]

### C75 Every value gets the label of its section

*Modelled and proved how.* PeriodModel: periodize as a fold of masked assignments over the sections, the width of numpy texts, the mapping argument afterwards. PeriodSpec: within bounds, the last section. Cell by cell the fold is one value at a time; then induction from the last section.

*Status:* partial. Proved for all numbers and NaN, all sections, Series, arrays without a default, and arrays whose labels are no longer than the default. Refuted: an array of texts keeps only as many letters as the default has, so two sections get one label (C75_array_refuted); a list given as mapping is extended in place, so the keywords of one call act in the next (C75_mapping_changed_refuted). Missing: infinite values, categories and index of the Series, labels other than texts.

* `PeriodProps.v`: `C75_labels` [EF], `C75_array_partial` [EF], `C75_length` [EF], `C75_one_label` [EF], `C75_nan` [EF], `C75_boundary` [EF], `C75_mapping_kept` [EF], `C75_mapping_changed_refuted` [EF], `C75_array_refuted` [EF]

### C76 Fourier terms and hard sigmoids are what they say

*Modelled and proved how.* FourierModel: names as a function and the tokens between its brackets, columns by index, the linear function as terms and parameters; hard_sigmoid on numbers with infinities and NaN. FourierSpec: wanted_wave, and what a name says by the grammar of LinModel (C41). Arithmetic of i // 2 and i % 2, periodicity and case analysis on the bounds.

*Status:* partial. Proved for all reals, lengths and bounds; names read as expressions for a variable with a plain name. Refuted: for a variable that is an expression (a+b) the factor takes only its last part (C76_expression_refuted); with equal bounds a missing value becomes 0 (C76_missing_refuted). None or array bounds, which the docstring allows, raise and are not modelled; nor the data frame options column and inplace.

* `FourierProps.v`: `C76_columns` [EFN], `C76_periodic` [EFN], `C76_names` [EFN], `C76_name_says` [EFN], `C76_series` [EFN], `C76_expression_refuted` [CEFN], `C76_rising` [EF], `C76_falling` [EF], `C76_step` [EF], `C76_sigmoid` [EF], `C76_missing_refuted` [EF]

## What is modelled, file by file

* `AltsModel.v`: Model of how the numba engine puts the data's alternatives and the graph's elemental nodes together: larch/numba/data_arrays.py 92-121, 155-357 (data arrays in the order of the data's alternatives), larch/dataset/flow.py 536-584 and larch/numba/cascading.py 68-123 (widening with nest columns), larch/numba/model.py 775-815 (idco slots), 1124-1145 (graph slots), 1558-1634 (labels of the answers). One case; dense idca data (a sparse row carries its alternative's position in the same order); expressions are already evaluated and names already resolved to slots.
* `BhhhModel.v`: Model of estimation: the BHHH optimizers of larch/model/abstract_model.pyx 236-396, larch/model/optimization.py 404-511, larch/numba/optimization.py, the two jumpstarts (abstract_model.pyx 298-319, numba/model.py 1859-1907), and the driver [maximize_loglike] (larch/model/optimization.py 50-401). The log likelihood, its gradient, the BHHH matrix and the penalty are an arbitrary function [eval] of the sample, the parameter values and the constraint intensity and sharpness (modules Logit* and Utility* model what it computes); matrix inversion and least squares are arbitrary functions. Parameter values, gradients and matrix entries are exact reals (a NaN proposal makes [set_values] raise, see ParamModel.set_array, and is not modelled here); the log likelihood may be NaN or infinite. A [while] loop with no counter takes fuel: [None] means that the fuel ran out.
* `BitsModel.v`: Model of larch/util/bitmasking.py and larch/model/systematic_alternatives.py: bit masks, the codes of systematic alternatives, their names and the nesting built from them. Code arrays are numpy int64: shifts wrap around modulo 2^64. Additions are written without the wrap where the theorems assume that all fields fit in 62 bits.
* `CEModel.v`: Model of the sparse (idce) data functions: larch/numba/data_arrays.py 577-607 ([ce_to_dense], [ce_bool_to_dense]), larch/dataset/flow.py 12-57 and 410-425 ([case_ptr_to_indexes], [ce_dissolve_zero_variance], dense branch of [dissolve_zero_variance]) and the pointer part of [Dataset.from_idce] (larch/dataset/construct.py 266-287). Arrays are lists (inputs) or functions (outputs); an access outside an array (undefined behaviour in compiled numba) makes the model return [None].
* `CeModel.v`: Model of the idce side of larch/dataframes.pyx: the data setters (1490-1720, 1764-1768, 1854-1858), the (case, alternative) to row map (1613-1665), the reformatting methods built on it (1582-1606, 1706-1729, 1819-1848, 1860-1871, 2316-2341), data_ce_as_ca (1667-1693) and crack_idca (239-266). Case ids are integers; alternatives are positions in the alternative codes.
* `ConsModel.v`: Model of larch/model/constraints.py (parametric constraints and the constraint list), the soft penalties of larch/numba/model.py 669-733 and larch/model/model.py 802-910. Parameter values are exact reals; infinite or missing bounds are modelled. A numba or numpy detail such as float32 rounding is not. Constraint strings (interpret_contraint, lines 531-585, and OrderingBound's one-string form) are in CstrModel.v.
* `CovModel.v`: Model of [calculate_parameter_covariance] (larch/model/abstract_model.pyx 1064-1200): the covariance matrix of the free parameters, the robust covariance, and the correction for binding constraints; and of [_get_bounds_constraints], [get_all_contraints], [get_all_binding_contraints] (larch/model/model.py 842-911). Matrices are functions of two indices below [n]; arithmetic is exact. The matrix inverse (numpy, larch/linalg) is a parameter. Warnings and the over-specification report are not modelled; the t statistics and the notes are in StatModel.
* `CstrModel.v`: Model of constraint strings: interpret_contraint and asfloat (larch/model/constraints.py 525-585), the one-string form of OrderingBound (207-221) and adding a string to the constraint list (466-500). Simplifications: text is a list of 8-bit characters read as Latin-1 (Python strings are Unicode); a decimal numeral is read as the exact real it denotes (Python's float rounds it to 53 bits, and overflows to infinity).
* `CyuModel.v`: Model of the utility functions of the compiled engine, larch/dataframes.pyx: [_link_to_model_structure] (the arrays of terms, 2107-2203), [link_to_model_parameters] (2213-2240), [_read_in_model_parameters] (2249-2281), [_compute_d_utility_onecase] (2356-2463), [_compute_utility_onecase] (2466-2553) and [get_zero_quantity_ca] (2599-2735). Exact reals, [None] = minus infinity. The log of a total size of zero is minus infinity, as in C; after it the product with the scale parameter is modelled for a positive scale only, and the derivative of that alternative (0/0 in C) is not meaningful, nor is a negative total size (NaN in C): the theorems ask for positive sizes where it matters. Not modelled: rounding, and reads outside the arrays.
* `DenseModel.v`: Model of the dense branch of [dissolve_zero_variance] (larch/dataset/flow.py 413-420): a variable with one value per case and alternative is replaced by its minimum over the alternatives when the largest standard deviation (over cases) is below 1e-10. Exact reals; missing values and empty alternative lists are not modelled.
* `DocModel.v`: Model of larch/troubleshooting.py (doctor and its checks, 12-378) with DataFrames.get_zero_quantity_ca (larch/dataframes.pyx 2600-2650, 2701-2729) and data_av_cascade (larch/dataframes.pyx 1731-1757). Choices are exact numbers (not NaN); quantities, weights and case data may be NaN ([None]). low_variance_data_co (381-430), which changes nothing and cannot be repaired, is not modelled.
* `FeasModel.v`: Model of the feasibility check of a model and of what the optimizers are told about its bounds and constraints: numba/model.py 1243-1298 [constraint_violation], model/model.py 802-813 [_get_constraints], 842-911 (in CovModel), model/parameter_frame.pyx 217-225 [pbounds], model/optimization.py 301-330, numba/optimization.py 104-171. Parameter values are finite numbers, as in ConsModel; bounds may be infinite, missing or NaN.
* `FourierModel.v`: Model of the expansions of one variable: [fourier_expansion_names] and [fourier_expansion] (larch/util/data_expansion.py 149-210), [fourier_series] (larch/util/common_functions.py 37-45) and [hard_sigmoid] (data_expansion.py 213-235). Simplifications: a name is its function and the text between the brackets, as tokens of LinModel; numbers are exact reals.
* `GroupModel.v`: Model groups: several models estimated together, with one frame of parameters. Source: larch/model/model_group.py at the pinned commit. Frames, scanning and [set_values] are those of [ParamModel] (larch/model/parameter_frame.pyx). The members are distinct objects, none of them a group (model_group.py 31-34 flattens groups).
* `IdcaModel.v`: Model of reading a table that has one row per case and alternative into a dense Dataset: [from_idca] in larch/dataset/construct.py 154-217, with the parts it calls: the xarray conversion of a two-level index ([construct], line 194), [dissolve_zero_variance] (larch/dataset/flow.py 379-420), [set_dtypes] (larch/dataset/patch.py 60-97), [set_altnames] (flow.py 205-240) and [alts_mapping] (flow.py 326-333). Also the attachment of alternative names in [_initialize_for_larch] (construct.py 19-78). Simplifications. Numbers are exact: integers are [Z] and floats are [Q] or the missing value, so the rounding of integers beyond 2^53 is not modelled. The standard deviation is compared through its square. Case ids are integers. Data types are the eight-byte integer, the eight-byte float, the boolean, the one-byte integer of the availability and everything else ("object"). A dataset with one alternative, where the coordinate itself would be dissolved, is outside the theorems.
* `LabelModel.v`: Model of larch/util/arraytools.py (is_sorted_and_unique, label_to_index, labels_to_unique_ids) and of the one-hot part of larch/util/data_expansion.py. Labels are integers (numpy orders any comparable labels the same way); frames are lists of named columns.
* `LcModel.v`: Latent class models: the mixture probability, its log likelihood and gradient, and the BHHH accumulation with its buffers. Source: larch/model/latentclass.py, larch/model/nl.pyx and larch/model/mnl.pyx at the pinned commit. Simplification: floats are real numbers; the log of a probability that is not positive is [None].
* `LcSyncModel.v`: How a latent class model and its parts share one parameter frame. Source: larch/model/latentclass.py, larch/model/parameter_frame.pyx, larch/model/abstract_model.pyx and larch/model/controller.pyx at the pinned commit. Frames are Python objects: a part holds a reference, and two parts with the same reference see each other's changes. Rows and scanning are those of [ParamModel].
* `LinModel.v`: Model of larch/model/linear.pyx (parameters, data references, linear components and linear functions, lines 59-1060, 1217-1245 and 1318-1332) and larch/model/linear_math.py (parameter arithmetic), with larch/util/naming.py [parenthize]. A data reference is a Python expression in a string. Here the string is a list of tokens, and what it evaluates to is given by a recursive descent parser for the arithmetic part of Python's grammar (the expression reference of the language, not larch code). Numbers are exact reals; the text of a number is the number itself, so "1" and "1.0" are the same text here.
* `LogitModel.v`: Model of the numba likelihood kernel, larch/numba/model.py 263-499 ([_numba_utility_to_loglike]) and of larch/numba/cascading.py 1-123. Numbers are exact reals. A utility or log probability is [option R], [None] being minus infinity. (float32/float64 rounding, overflow and the numba [fastmath] flag are not modelled.) Arrays are functions from index to value; loops are [fold_left]. Not modelled: cross-nesting allocation ([allocslot], unused by the code) and the [else] branch of [if True] at line 301, which is dead code.
* `NetModel.v`: Model of the nested and cross-nested logit kernel of the Cython engine, larch/model/nl.pyx 46-257, 321-392 and 552-674 for one case, over the arrays of larch/model/tree_struct.pyx (tree.py 910-957): nodes in slots, edges with allocation parameters. Numbers are exact reals; a utility, log probability or log likelihood is [option R] with [None] minus infinity; an entry of the derivative of the probabilities is [option R] with [None] NaN. Arrays are functions, loops are [fold_left]. All logsum parameters are taken to be positive (the theorems say so): nl.pyx 37-43 is meant to reject zero, but it is a [cdef void] function, whose exception is only printed. Not modelled: rounding; the roll-up of the choices at nl.pyx 173-177, whose result is not read (line 188 tests [True or ...]).
* `NetTreeModel.v`: The arrays of the Cython nested logit kernel, from the nesting graph (larch/model/tree.py 910-957).
* `ParamModel.v`: Model of the parameter frame: larch/model/parameter_frame.pyx (rows, name scanning, [set_value], [lock_value], [set_values], [set_cap], mangling), the parts of larch/model/abstract_model.pyx that read and write it ([_check_if_best], [clear_best_loglike], [mangle], [loglike_null], [likelihood_ratio]) and the evaluation entry points of larch/numba/model.py 1441-1483 and larch/model/controller.pyx 670-930. Floating point numbers are exact reals plus the IEEE specials the code distinguishes (NaN, the infinities); rounding, signed zero and integer wrap-around are not modelled. An exception is an explicit result; the state at the time it was raised is kept.
* `PeriodModel.v`: Model of labelling sections of a variable: [periodize] (larch/util/data_manipulation.py 26-134). Simplifications: labels and the default are texts (or None for the default); bounds are reals or None; values are one-dimensional; the index and the categories of a Series are left out.
* `PickleModel.v`: Model of saving and restoring a numba model: [dumps], [pickle.loads], [copy] and [load] (larch/model/model.py 132-188, 743-759; controller.pyx 98-180, 482-491; larch/numba/model.py 1957-1973; tree.py 492-515), on the models of TouchModel.v. Simplifications: pickle, cloudpickle, gzip and base64 are taken to give back what was put in, so what is saved is a record of settings; constraint intensity and sharpness, the title, the display order, the last estimation result and the cached log likelihoods, also saved, are not part of a model of TouchModel.v; rename_parameters is empty.
* `PieceModel.v`: Model of the piecewise linear part of larch/util/data_expansion.py (lines 240-432). Numbers are exact reals (no NaN, no infinities); a bound that is [None] in Python is [None] here. The texts "piece(x,b0,b1)" are kept as the pair of bounds they contain: the numbers are formatted and read back by Python's repr and literal_eval, which are inverse on floats.
* `PvalModel.v`: Model of asking a model for values: [pvalue] (larch/model/parameter_frame.pyx 233-302), [get_value] (462-477), [pf] and [unmangle] (167-170, 190-196), ParameterRef_C.value (larch/model/linear.pyx 173-193) and the value of parameter operations (larch/model/linear_math.py 191-268). Simplifications: numbers are reals, and division is Coq's (a zero divisor gives no error, infinity or NaN here); no formatting of texts; the dict made from a list or tuple is kept as the list of its assignments, in order; the old classes of roles.py (266-276) are left out; parameter frames have the names and values only.
* `RangeModel.v`: The case ranges [start_case, stop_case, step_case] of the likelihood kernels: how many result rows are allocated, which cases are visited, and where the result of each case is stored. Source: larch/model/mnl.pyx and larch/model/latentclass.py at the pinned commit.
* `SchedModel.v`: The multi-threaded likelihood kernels of the Cython engine: the parallel loop over cases, the per-thread and per-case buffers, and the reductions. Source: larch/model/mnl.pyx 91-125, 261-294, 399-457, 461-690 and larch/model/nl.pyx 211-257, 424-720 at the pinned commit. Memory is a function from locations to numbers; one instruction is one store. Each thread runs the instructions of its own cases in its own order; the threads interleave arbitrarily. Numbers are exact, [None] is minus infinity or NaN; adding floats in another order can change the last bits, which exact numbers do not show. Cython's rules: a scalar assigned in the parallel loop belongs to the thread, and [ll += ...] is a reduction (each thread has its own [ll], added up at the end).
* `SessModel.v`: Model of the evaluation methods of larch/numba/model.py: [_loglike_runner] (1362-1433) with the work arrays it writes into (859-897, 1068-1104), the kernel under its return flags (264-499, 516-653), and the methods built on it: loglike, d_loglike, loglike_casewise, d_loglike_casewise, bhhh, probability, utility, quantity, logsums, loglike2, loglike2_bhhh (1441-1796), constraint_converge_tolerance up to its sums (1334-1360), and [_wrap_as_dataframe] (1565-1608). Arrays returned without arithmetic are views of the work arrays; results of arithmetic are copies. The cases of a call are independent of each other, so the order in which the parallel kernel takes them does not matter; they are taken in slice order here. Not modelled: rounding; the retry without output arrays after a ValueError (1392-1396), which a model whose work arrays have the shape of its data does not meet; which parameters a vector of values may move (C25); the cache of the best parameters (C30). The penalty is any function of the intensity and the values (constraint_penalty, 1304-1332, is the subject of C40).
* `SplitModel.v`: Model of DataFrames.split, larch/dataframes.pyx 3056-3154. Arithmetic is exact.
* `StatModel.v`: Model of what [calculate_parameter_covariance] writes into the parameter frame: standard errors, t statistics, their robust and unconstrained versions and the notes on binding constraints and held parameters (larch/model/abstract_model.pyx 1113-1227), and [get_binding_note], [get_parameters] (larch/model/constraints.py 121-128, 251-255, 360-367). Arithmetic is exact, a zero standard error is positive zero. The matrices are those of CovModel. The warnings about negative variances and over-specification are not modelled. Constraints are taken to be linked to the frame, so that the names they mention are rows of it.
* `SumModel.v`: Model of the choice and availability summary: larch/dataset/__init__.py 1381-1524 ([choice_avail_summary]), called by larch/numba/model.py 2086-2103 with no graph for a multinomial model, with the nesting tree otherwise, and of the cascades it uses (larch/numba/cascading.py 68-123, LogitModel.array_av_cascade / array_ch_cascade). Numbers are exact reals. An exception is [None]. A cell is [option R], [None] being a missing value or a blank. Not modelled: the 'name' column, the 'availability condition' column ([availability_co_vars] is None), and the conversion of integral columns to int (1503-1522), which changes no value.
* `TableModel.v`: Model of the ordered parameter table: the setters of [ordering] (larch/model/parameter_frame.pyx 641-657), [pfo] (659-688), the significance marks of [parameter_summary] (932-979), and the rows and parameter columns of [joint_parameter_summary] (larch/util/summary.py 5-85). Simplifications: [re.match(pattern, name) is not None] is a test [re] of patterns and names, any test at all; the rows of a frame are of any type; of a cell's formatted text only the cases BIG, -BIG and NA are kept apart from numbers.
* `TouchModel.v`: Model of how a numba model notices that its settings have changed: the compiled arrays it keeps (larch/numba/model.py 902-927, 1009-1158), [mangle] and [unmangle] (controller.pyx 263-274, parameter_frame.pyx 161-170), the loading of data with reuse of prepared flows (larch/numba/data_arrays.py 72-362, 364-374, 521-570; larch/dataset/flow.py 536-584), and every operation that changes a setting: the functions utility_ca, utility_co, quantity_ca (linear.pyx 771-965, 1333-1451), the choice, weight and availability settings (controller.pyx 372-403, 1075-1262), the graph (tree.py 16-69), datatree, dataset and float_dtype (numba/model.py 1993-2085), constraints (constraints.py 393-500) and the parameter frame (parameter_frame.pyx 110-119, 172-210, 336-392; model.py 757-786). Several models share a world of function objects and data trees, as they do in a Python session. Simplifications: datasets hold idca data in dense form; a model always has a graph; expressions always evaluate; md5 (data_arrays.py 366) is taken to be injective, so a flow is named by the text that is hashed; of a parameter only name and value are kept; rename_parameters (controller.pyx 66) is empty; models with DataFrames, which reload their arrays every time (numba/model.py 1028-1066), are left out.
* `TreeModel.v`: Model of larch/model/tree.py : NestingTree (a networkx DiGraph with extra bookkeeping). Node codes are integers [Z]. networkx dictionaries keep insertion order, so nodes and edges are lists in insertion order; the successors (predecessors) of a node are the edges leaving (entering) it in insertion order.
* `UtilityModel.v`: Model of the utility functions of larch/numba/model.py 54-231 and of the case driver [_numba_master] 516-653. Exact reals, [None] = minus infinity, as in LogitModel. Not modelled: the [only_utility] early exits (they return a prefix of the same computation), rounding, and writes outside the arrays.
* `WtModel.v`: Model of the weights of larch/dataframes.pyx: scale_weights (2867-2930), autoscale_weights (2932-2993), unscale_weights (2995-3007), weight_normalization (3009-3023), total_weight (1414-1418), and of the choice-weighted sums that the likelihoods take over them (larch/model/mnl.pyx 585-652, nl.pyx 605-683). Arithmetic is exact; a NaN weight is [None].

## What is not modelled

* Floating point rounding, overflow, fastmath reassociation; numba / Cython compilation; thread scheduling only for the Cython multinomial logit kernel (C62), at the granularity of one array store; the effect of the order of additions on rounding is not modelled.
* pandas / numpy / xarray / sharrow internals: only the operations named in the model files are modelled, by their documented meaning.
* Reporting and display (xmle, HTML, Excel, figures, dashboards), file formats (omx, hdf, csv, dump/load), examples, ipynb tooling.
* The machine learning side packages (larch/learning, prelearning), scoring and histograms.
