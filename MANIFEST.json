{
 "claims": [
  {
   "property": "C01",
   "status": "proved",
   "theorems": [
    "C01_find_iff_connected",
    "C01_queries_are_pure"
   ],
   "note": "All legal histories of reset/insert/merge/find; results are Ret, so no out-of-bounds access and termination are included."
  },
  {
   "property": "C02",
   "status": "proved",
   "theorems": [
    "C02_counts_and_labelings"
   ],
   "note": "Counts, representatives, representativeLabeling and elementLabeling after any legal history."
  },
  {
   "property": "C03",
   "status": "proved",
   "theorems": [
    "C03_disjoint_set"
   ],
   "note": "All legal histories; the missing destructor/copy constructor (leak, aliasing copies) is outside the model, see DESIGN.md findings."
  },
  {
   "property": "C04",
   "status": "proved",
   "theorems": [
    "C04_random_access_set",
    "C04_swap_refuted"
   ],
   "note": "Proved for every strict weak order and history of the other operations; swap() with stateful comparators is refuted by C04_swap_refuted."
  },
  {
   "property": "C05",
   "status": "proved",
   "theorems": [
    "C05_priority_queue"
   ],
   "note": "All capacities, strict weak orders and legal histories. Priorities agree up to comparator equivalence."
  },
  {
   "property": "C06",
   "status": "partial",
   "theorems": [
    "C06_fifo_partial",
    "C06_fifo_refuted",
    "C06_fifo_refuted_every_capacity"
   ],
   "note": "The property as stated is false (FiFoQueue::push never wraps around): refuted for every positive capacity. Proved for histories with at most maxSize pushes since the last clear."
  },
  {
   "property": "C07",
   "status": "proved",
   "theorems": [
    "C07_partition_numbering",
    "C07_large_orders_throw"
   ],
   "note": "Default EdgeLabelType (size_t, 64 bit); all orders up to 11 that fit, any history of the shared table."
  },
  {
   "property": "C08",
   "status": "proved",
   "theorems": [
    "C08_pottsg",
    "C08_relabeling",
    "C08_construct_and_roundtrip",
    "C08_isPotts_inside_shape_refuted",
    "C08_isPotts_default_refuted"
   ],
   "note": "Order up to 11. isPotts() decides the class over all labelings of the order; over labels inside a small shape it is refuted, and on a default constructed function it reads out of bounds."
  },
  {
   "property": "C09",
   "status": "proved",
   "theorems": [
    "C09_shape_walker",
    "C09_switched_order",
    "C09_sub_shape_walker",
    "C09_double_shape_walker",
    "C09_triple_shape_walker",
    "C09_isEqualValueVector",
    "C09_switched_order_dim0_refuted",
    "C09_sub_shape_walker_unsorted_refuted"
   ],
   "note": "All dimensions and positive shapes. Unsorted fixed positions and dimension 0 of the switched walker are outside the claim and refuted."
  },
  {
   "property": "C10",
   "status": "partial",
   "theorems": [
    "C10_adder",
    "C10_multiplier",
    "C10_less_is_order",
    "C10_minimizer",
    "C10_maximizer",
    "C10_integrator",
    "C10_and_or",
    "C10_or_integer",
    "C10_logsumexp",
    "C10_logsumexp_laws",
    "C10_weighted_adder",
    "C10_weighted_multiplier",
    "C10_adder_infinite_refuted",
    "C10_multiplier_zero_refuted",
    "C10_integer_neutral_refuted",
    "C10_integrator_inplace_refuted",
    "C10_and_integer_refuted",
    "C10_logsumexp_outofplace_refuted",
    "C10_logsumexp_neutral_refuted"
   ],
   "note": "The laws hold as proved; the full statement is false: Integrator's in-place iop, Logsumexp's three-argument op, And on integers and the neutral elements for integer value types are refuted. Rounding is not modelled."
  },
  {
   "property": "C29",
   "status": "proved",
   "theorems": [
    "C29_unsignedIntegerPow"
   ],
   "note": "exact power for every base and exponent, in unsigned arithmetic modulo 2^w"
  },
  {
   "property": "C30",
   "status": "partial",
   "theorems": [
    "C30_accumulation_partial",
    "C30_accumulation_refuted",
    "C30_neutral_refuted",
    "C30_minmax_functor"
   ],
   "note": "the accumulated value is right for every sequence and the state is that of the first best value provided some value is strictly better than the neutral element; without that proviso the claim is false of the code (refuted with a witness), and neutral() returns the state size"
  },
  {
   "property": "C31",
   "status": "proved",
   "theorems": [
    "C31_findInSortedSequence",
    "C31_isSorted",
    "C31_doubleSort",
    "C31_findInSortedSequence_empty_refuted"
   ],
   "note": "all sequences; the empty sequence is a defect of findInSortedSequence and refuted separately"
  },
  {
   "property": "C27",
   "status": "partial",
   "theorems": [
    "C27_identifiers_partial",
    "C27_lt_refuted",
    "C27_lt_trans_refuted",
    "C27_le_refuted"
   ],
   "note": "False as stated: across function types < is neither asymmetric nor transitive, and <= is always true within one type (all refuted with witnesses). Proved: == is identity, > is the converse of <, < is a strict total order among identifiers of one type."
  },
  {
   "property": "C32",
   "status": "partial",
   "theorems": [
    "C32_discrete",
    "C32_simple",
    "C32_grid",
    "C32_views",
    "C32_isSimpleSpace",
    "C32_simple_assignDense_refuted",
    "C32_simple_assignDense_empty_refuted",
    "C32_view_add_refuted",
    "C32_static_refuted",
    "C32_isSimpleSpace_empty_refuted"
   ],
   "note": "Proved for DiscreteSpace, SimpleDiscreteSpace, GridSpace and the two view spaces; false (refuted) for StaticSimpleDiscreteSpace, ViewSpace::addVariable, a rejected SimpleDiscreteSpace::assignDense and isSimpleSpace of an empty DiscreteSpace."
  },
  {
   "property": "C11",
   "status": "proved",
   "theorems": [
    "C11_evaluate",
    "C11_progress",
    "C11_sharing",
    "C11_view"
   ],
   "note": "Every legal history over any number of models in a heap, every operation and labeling; functions are total tables, label space is DiscreteSpace."
  },
  {
   "property": "C12",
   "status": "proved",
   "theorems": [
    "C12_adjacency",
    "C12_adj_of",
    "C12_finalize",
    "C11_evaluate"
   ],
   "note": "factorOrder and variableOfFactor are part of C11_evaluate's 'presents'."
  },
  {
   "property": "C13",
   "status": "partial",
   "theorems": [
    "C13_throws",
    "C13_unchanged_refuted",
    "C13_adjacency_refuted"
   ],
   "note": "False of the code: the factor is stored before the check (refuted: number of factors, order and adjacency change, evaluate becomes undefined). Proved: the exception is thrown exactly for invalid sequences, which isValidIndexSequence decides beforehand."
  },
  {
   "property": "C14",
   "status": "proved",
   "theorems": [
    "C14_unaffected",
    "C14_copy",
    "C14_cross_assign"
   ],
   "note": "Copy construction, assignment and cross-type-list assignment, under every later legal history of the other models including destruction of the original."
  },
  {
   "property": "C33",
   "status": "partial",
   "theorems": [
    "C33_property_lookup_partial",
    "C33_two_types_refuted",
    "C33_two_types_out_of_bounds_refuted"
   ],
   "note": "Proved for type lists of length other than two; for exactly two types the code looks in the second list and the claim is refuted."
  },
  {
   "property": "C34",
   "status": "partial",
   "theorems": [
    "C34_factor_assignment_partial",
    "C34_factor_assignment_refuted"
   ],
   "note": "False across models (the model pointer is not assigned): refuted. Proved within one model."
  },
  {
   "property": "C15",
   "status": "partial",
   "theorems": [
    "C15_value",
    "C15_relabel",
    "C15_initialize",
    "C15_early_return_refuted",
    "C15_duplicate_refuted",
    "C15_infinite_refuted"
   ],
   "note": "Every history of move, valueAfterMove, moveOptimally, initialize and reset with distinct variables: value() equals evaluate of the state. moveOptimallyWithAllLabelsChanging is included when every variable has at least two labels; with a one-label variable it corrupts the buffer, duplicates and infinite values break the claim (all refuted with witnesses)."
  },
  {
   "property": "C16",
   "status": "partial",
   "theorems": [
    "C16_moveOptimally",
    "C16_moveAllChanging",
    "C16_empty_refuted"
   ],
   "note": "Proved for all nonempty lists of distinct variables; on an empty list the search never terminates (refuted)."
  },
  {
   "property": "C17",
   "status": "partial",
   "theorems": [
    "C17_infer",
    "C17_optimal",
    "C17_infinite_refuted"
   ],
   "note": "All models and operations with the stated laws, any visitor. With infinite values the reported optimum can be wrong (refuted)."
  },
  {
   "property": "C18",
   "status": "partial",
   "theorems": [
    "C18_infer",
    "C18_start",
    "C18_start_refused",
    "C18_factor_mode_refuted"
   ],
   "note": "Every history and visitor: terminates, never worsens, value() is the value of the labeling, and (visitor not stopping) no single variable can be improved, in both modes. Joint optimality per factor in FACTOR mode is false of the code (refuted with a witness)."
  },
  {
   "property": "C21",
   "status": "partial",
   "theorems": [
    "C21_fix",
    "C21_view",
    "C21_scaled",
    "C21_modelview",
    "C21_fix_unsorted_refuted"
   ],
   "note": "All factors, fixed positions in increasing order, labels and earlier calls. With fixed positions that are not sorted the view reads other positions (refuted)."
  },
  {
   "property": "C35",
   "status": "proved",
   "theorems": [
    "C35_submodel",
    "C35_propose"
   ],
   "note": "The inference algorithm on the sub-model is a parameter. An unsorted sequence of variables is rejected by an assertion in debug builds and is outside the property."
  },
  {
   "property": "C19",
   "status": "partial",
   "theorems": [
    "C19_optimal",
    "C19_before",
    "C19_rejects",
    "C19_roots_refuted",
    "C19_infinite_refuted",
    "C19_node_info",
    "C19_node_info_constant_refuted"
   ],
   "note": "All forests, label counts, tables with values on which the operation is a commutative group compatible with the order, root choices with at most one root per tree that cover the first variables, and any number of infer calls. Other root choices make the constructor access memory out of bounds, and values not better than the accumulation's neutral element lead to no label (both refuted). getNodeInfo of a root gives, for each label, a best labeling with this label and its value (C19_node_info, connected forests); factors without variables are missing in that value (refuted)."
  },
  {
   "property": "C28",
   "status": "partial",
   "theorems": [
    "C28_fast_single",
    "C28_fast_partial",
    "C28_buffer_partial",
    "C28_fast_refuted",
    "C28_buffer_refuted"
   ],
   "note": "FastSequence without copies between sequences: every history. With copies and assignments: the histories in which capacity_ matches the buffer. BufferVector: all but four kinds of operation. The excluded ones are false of the code (eight witnesses: freeing the stack buffer, writing behind the buffer, leaks, an uninitialised pointer freed, reserve changing the size)."
  },
  {
   "property": "C20",
   "status": "partial",
   "theorems": [
    "C20_model",
    "C20_model_onto",
    "C20_submodels",
    "C20_unlocked_refuted",
    "C20_tentacle_model",
    "C20_tentacle_submodels",
    "C20_tentacle_optimal",
    "C20_tentacle_submodels_optimal",
    "C20_tentacle_pairwise",
    "C20_tentacle_leafs_refuted",
    "C20_tentacle_unlock_refuted"
   ],
   "note": "All models, histories of calls and both manipulation modes, provided lock() is called before a model is built: without it the builders read behind an empty vector (refuted). After tentacle elimination the value of a labeling of the model is the best value of the labelings that extend it, and translating it back gives such a labeling; so optimal labelings stay optimal. This holds for every solver of the tentacles that is exact, and for the solver of the code when the factors have at most two variables (C20_tentacle_pairwise); belief propagation, which solves tentacles with larger factors, is only covered by that hypothesis. The number of factors must exceed the free variable indices, else the code writes out of bounds (refuted), and unlock() after the elimination keeps the tentacles (refuted)."
  },
  {
   "property": "C22",
   "status": "partial",
   "theorems": [
    "C22_potts",
    "C22_truncated_absolute",
    "C22_truncated_squared",
    "C22_squared_difference",
    "C22_absolute_difference",
    "C22_absolute_difference_Z",
    "C22_pottsn",
    "C22_constant",
    "C22_explicit",
    "C22_static_single_site",
    "C22_sparse",
    "C08_construct_and_roundtrip",
    "C22_dynamic_single_site_refuted",
    "C22_default_refuted"
   ],
   "note": "Round trips for the listed function types, for all parameters and shapes. DynamicSingleSiteFunction writes no index and does not round-trip, default constructed N-ary Potts and constant functions change their size and a default constructed table is read out of bounds (refuted). The other function types have their own properties: learnable functions C48, constraint functions C50 and C51."
  },
  {
   "property": "C23",
   "status": "partial",
   "theorems": [
    "C23_sweep",
    "C23_sweep_coordinates",
    "C23_generic",
    "C23_accumulate",
    "C23_potts",
    "C23_constant",
    "C23_potts_single_refuted",
    "C23_switched_order_refuted"
   ],
   "note": "Integer values, all shapes with positive extents. The Potts closed forms of min, max and minMax are wrong for a 1x1 table (refuted); the conversion to double in product() is not modelled; constant functions with sizes below 2^31."
  },
  {
   "property": "C24",
   "status": "partial",
   "theorems": [
    "C24_isPotts",
    "C24_isPotts_unary_refuted",
    "C24_isGeneralizedPotts",
    "C24_isGeneralizedPotts_refuted",
    "C24_isSubmodular",
    "C24_isDifference",
    "C24_isDifference_refuted",
    "C24_isTruncatedDifference_partial",
    "C24_isTruncatedDifference_refuted"
   ],
   "note": "isPotts exact for all functions with other than one variable, isGeneralizedPotts for 2 to 4 variables with enough labels, isSubmodular where it does not throw, the difference predicates for at least two labels on the first variable. The truncated predicates recognize truncated differences with nonnegative weight only, and are neither sound nor complete in general (refuted). The floating point tolerance is not modelled."
  },
  {
   "property": "C25",
   "status": "partial",
   "theorems": [
    "C25_sparse_function",
    "C25_last_insertion_refuted"
   ],
   "note": "All shapes, default values and histories of insertions. Inserting a second value at a coordinate has no effect (refuted)."
  },
  {
   "property": "C36",
   "status": "partial",
   "theorems": [
    "C36_pairwise_values",
    "C36_pottsn_values",
    "C36_explicit_values",
    "C36_size",
    "C36_size_refuted",
    "C36_equality"
   ],
   "note": "size() of N-ary Potts and constant functions is right below 2^31 label tuples and wrong above (refuted). operator== for exact value types."
  },
  {
   "property": "C26",
   "status": "partial",
   "theorems": [
    "C26_models",
    "C26_entries",
    "C26_variable_factor",
    "C26_variable_variable",
    "C26_factor_factor",
    "C26_isAcyclic",
    "C26_isConnected",
    "C26_isConnected_refuted",
    "C26_isChain",
    "C26_orders",
    "C26_adjacency",
    "C26_factorAdjacencyList_refuted",
    "C26_isGrid_refuted"
   ],
   "note": "All factor graphs of well-formed models. isConnected for graphs without order-0 factors (with one it reads outside, refuted). factorAdjacencyList is wrong (refuted), isGrid answers with a wrong matrix (refuted)."
  },
  {
   "property": "C37",
   "status": "partial",
   "theorems": [
    "C37_views",
    "C37_views_onto",
    "C37_index",
    "C37_squeeze_refuted",
    "C37_iteration",
    "C37_iteration_back_refuted",
    "C37_copy",
    "C37_assign",
    "C37_operate",
    "C37_operate_scalar",
    "C37_new",
    "C37_array_assign",
    "C37_resize",
    "C37_assign_highdim_refuted",
    "C37_resize_refuted"
   ],
   "note": "All shapes, orders and histories. False parts, refuted with witnesses: stepping back from the end of a view with spread entries, a stale flag after squeezing to no dimensions, assignment between views of more than ten dimensions in different orders, resizing between shapes that have only one entry in common. Overlap tests use addresses of one flat memory."
  },
  {
   "property": "C38",
   "status": "partial",
   "theorems": [
    "C38_binary",
    "C38_inplace",
    "C38_inplace_self",
    "C38_unary",
    "C38_accumulate_all",
    "C38_accumulate_some",
    "C38_best_value",
    "C38_subtractOffset",
    "C38_fixVariables",
    "C38_construction",
    "C38_normalize",
    "C38_normalize_sum",
    "C38_normalize_min",
    "C38_scalar_refuted",
    "C38_accumulate_scalar_refuted",
    "C38_alias_refuted",
    "C38_fill_scalar_refuted"
   ],
   "note": "All factors, label numbers, value types and operations. False parts, refuted: combining two factors without variables, element-wise operation out of place on such a factor, accumulating over variables in it, f.operateBinary(f,g,op), constructing one from an empty variable list and a value."
  },
  {
   "property": "C39",
   "status": "partial",
   "theorems": [
    "C39_infer",
    "C39_neighbourhood",
    "C39_exact",
    "C39_refused",
    "C39_second_infer_refuted",
    "C39_raised_bound_refuted",
    "C39_one_label_refuted"
   ],
   "note": "All models whose variables have at least two labels, all parameters, histories and visitors; the neighbourhood claim is for the first infer of an object. False parts, refuted: the neighbourhood claim for a second infer or after raising the bound (reset does nothing); value() and termination with a one-label variable."
  },
  {
   "property": "C40",
   "status": "partial",
   "theorems": [
    "C40_model",
    "C40_factors",
    "C40_tolerance",
    "C40_solver_exists",
    "C40_refused",
    "C40_second_infer_refuted",
    "C40_third_order_refuted"
   ],
   "note": "Factors of order at most two, integer values and capacities, every solver that returns minimum cuts. False parts, refuted for every such solver: third order factors (wrong variable and nodes in the construction), a second infer (terminal edges are added again). The max-flow libraries and rounding to a coarser capacity type are not modelled."
  },
  {
   "property": "C41",
   "status": "partial",
   "theorems": [
    "C41_infer",
    "C41_start",
    "C41_first_swap",
    "C41_binary",
    "C41_refused",
    "C41_swap_optimal_refuted",
    "C41_unequal_labels_refuted"
   ],
   "note": "Integer values, every solver that returns minimum cuts, all histories and visitors. False parts, refuted: optimality with respect to swap moves at the end (the counter of unsuccessful moves is never set back), models with different label numbers (factors are read at labels they do not have)."
  },
  {
   "property": "C42",
   "status": "partial",
   "theorems": [
    "C42_infer",
    "C42_binary",
    "C42_initial",
    "C42_start",
    "C42_refused",
    "C42_metric_refuted",
    "C42_expansion_optimal_refuted",
    "C42_local_optimum_refuted",
    "C42_reset_refuted",
    "C42_undefined_refuted"
   ],
   "note": "Integer values, every solver that returns minimum cuts, all legal parameters, histories and visitors; random numbers are arbitrary. False parts, refuted: metric pairwise factors (infer can worsen the labeling), optimality with respect to expansions at the end, initial labels from unary factors unless the factors are in the order of the variables, reset with such initial labels, models without variables or with different label numbers, label orders of the wrong length."
  },
  {
   "property": "C43",
   "status": "partial",
   "theorems": [
    "C43_build",
    "C43_round_trip",
    "C43_used_target",
    "C43_unknown_type",
    "C43_version",
    "C43_empty_refuted",
    "C43_static_refuted",
    "C43_unused_type_refuted",
    "C43_adjacency_refuted"
   ],
   "note": "Any value type in which w*|0-1| is w, the nine function types explicit, sparse, absolute, truncated absolute, squared, truncated squared, Potts, PottsN, constant; the target type list contains all types of the source in any order. The HDF5 library is taken to return what was written. False parts, refuted: models without variables and StaticSingleSiteFunction (undefined behaviour when saving), a source type without functions that the target does not have (functions of the first type are silently not loaded), the order and the factors at a variable when the target is in use."
  },
  {
   "property": "C44",
   "status": "partial",
   "theorems": [
    "C44_variable_marginals",
    "C44_factor_marginals",
    "C44_reset_refuted",
    "C44_normalized_sum_refuted"
   ],
   "note": "Any value type with a commutative semiring on its finite values; factors with variables. False parts, refuted: reset leaves old messages in place (the marginals after it are not those of a new object), and normalized values are left as they are if they accumulate to at most 0.00001 for the product."
  },
  {
   "property": "C45",
   "status": "proved",
   "theorems": [
    "C45_variable_marginals",
    "C45_factor_marginals"
   ],
   "note": "Same laws as C44. The number of steps is a bound that suffices for every model (C45_few_rounds shows a model on which one step does not); the convergence bound must be one that no distance of messages is below, as the default 0."
  },
  {
   "property": "C46",
   "status": "proved",
   "theorems": [
    "C46_safe"
   ],
   "note": "No laws of the operations are needed. The sequential schedule needs an order with one entry for each variable, as the constructor asserts, each entry the index of a variable (not necessarily different)."
  },
  {
   "property": "C47",
   "status": "proved",
   "theorems": [
    "C47_arg",
    "C47_arg_rounds",
    "C47_mode_marginal_refuted",
    "C47_two_labels_refuted",
    "C47_arg_undefined_refuted"
   ],
   "note": "For finite values. Refuted beside it: modeFromMarginal need not be optimal when there are ties, constrainedOptimum with two given labels need not be optimal, and arg before infer reads the first entry of an empty labeling when a row of a factor is infinite."
  },
  {
   "property": "C48",
   "status": "partial",
   "theorems": [
    "C48_potts",
    "C48_unary",
    "C48_unary_shared",
    "C48_weighted_sum",
    "C48_potts_round",
    "C48_unary_round",
    "C48_regularizer",
    "C48_weights_needed",
    "C48_constraints_partial",
    "C48_constraint_bounds_refuted",
    "C48_weighted_sum_round_refuted"
   ],
   "note": "Proved over every ring except for two false parts: LWeightedSumOfFunctions does not survive writing and reading (deserialize never assigns its destination), and WeightConstraints::addConstraint drops the bounds of the constraint."
  },
  {
   "property": "C49",
   "status": "partial",
   "theorems": [
    "C49_search",
    "C49_again",
    "C49_standard",
    "C49_standard_pairs",
    "C49_bp_solver",
    "C49_twins_refuted",
    "C49_triple_refuted",
    "C49_fast_triple_refuted",
    "C49_heap_refuted",
    "C49_heap_one_refuted",
    "C49_bound_constant_refuted",
    "C49_bound_second_refuted",
    "C49_repeat_refuted",
    "C49_normal_refuted"
   ],
   "note": "Proved for models with factors of at most two variables (the fast heuristic), and for factors of any number of variables whose first variable comes late in the order (the standard heuristic, with belief propagation as its solver), with a heap that does not fill up and tree factors without cycles. Refuted without these conditions: infer does not return on two factors with the same two variables, and finds a labeling that is not optimal with factors of three variables or a small heap. bound() is refuted with factors without variables and when more than one labeling is asked for."
  },
  {
   "property": "C50",
   "status": "partial",
   "theorems": [
    "C50_linear",
    "C50_one_pair_sortable",
    "C50_label_order",
    "C50_num_labels",
    "C50_num_labels_uniform",
    "C50_relaxed",
    "C50_valid_iff_silent",
    "C50_min_max",
    "C50_equal",
    "C50_add",
    "C50_order",
    "C50_linear_same",
    "C50_linear_round",
    "C50_label_order_round",
    "C50_num_labels_round",
    "C50_sort_refuted",
    "C50_linear_refuted",
    "C50_le_refuted",
    "C50_num_labels_refuted",
    "C50_min_refuted",
    "C50_linear_round_refuted",
    "C50_num_labels_round_refuted"
   ],
   "note": "Proved for all constraints whose indicator variables the comparison orders weakly (always so for one pair each). Refuted without: the comparison of indicator variables is not a strict weak ordering for three indicator variables over two binary variables, so the constructor calls std::sort outside its contract. min() need not be a value of the function; size() of functions with 2^31 or more entries changes in a round trip; constraints with more coefficients than indicator variables change in a round trip."
  },
  {
   "property": "C51",
   "status": "partial",
   "theorems": [
    "C51_label_cost",
    "C51_label_cost_uniform",
    "C51_same_labels",
    "C51_sum_constraint",
    "C51_sum_constraint_uniform",
    "C51_sum_zero",
    "C51_label_cost_round",
    "C51_sum_round",
    "C51_size_refuted"
   ],
   "note": "Values proved for all shapes with a cost for each label and a table for each variable. The round trip is proved for functions whose size fits int; size() of larger ones changes in a round trip (refuted)."
  },
  {
   "property": "C52",
   "status": "partial",
   "theorems": [
    "C52_history",
    "C52_reorder",
    "C52_complete",
    "C52_manual",
    "C52_tree",
    "C52_spanning_trees",
    "C52_kfans_sets",
    "C52_kfans",
    "C52_kfans_throw",
    "C52_open_blocks",
    "C52_closed_blocks_sets",
    "C52_closed_blocks",
    "C52_prepare",
    "C52_spanning_trees_refuted",
    "C52_manual_refuted"
   ],
   "note": "Proved for every model and every history. Refuted: a model with variables but no factors has no spanning trees, so its variables occur in no submodel; decomposeManual creates no copies of variables without factors, so isValid can be false although every factor is listed."
  },
  {
   "property": "C53",
   "status": "partial",
   "theorems": [
    "C53_total",
    "C53_reparametrization",
    "C53_value",
    "C53_bound",
    "C53_iteration",
    "C53_agreement",
    "C53_accuracy",
    "C53_coupling",
    "C53_linear",
    "C53_convergence",
    "C53_bruteforce",
    "C53_no_submodel_refuted",
    "C53_uncovered_refuted"
   ],
   "note": "Proved for every covering decomposition, with rational numbers instead of doubles; Bruteforce is an exact solver. Refuted: spanning trees of a model without factors have no submodel and infer reads the first one; given sets that do not cover the model are accepted in release builds and bound() is then no bound."
  },
  {
   "property": "C54",
   "status": "partial",
   "theorems": [
    "C54_reduction",
    "C54_repeated",
    "C54_minimizer",
    "C54_persistency",
    "C54_unsorted_refuted",
    "C54_clear_refuted",
    "C54_clear_constant_refuted",
    "C54_degree_refuted"
   ],
   "note": "Proved for every history without Clear, with exact numbers. Refuted: variables of a monomial that are not increasing give a wrong energy; Clear keeps the counter of the variables and the constant; a monomial with more than D variables overflows its array."
  },
  {
   "property": "C55",
   "status": "partial",
   "theorems": [
    "C55_solver_exists",
    "C55_fusion_move",
    "C55_hqpbo",
    "C55_hqpbo_start",
    "C55_order_refuted",
    "C55_proposal_refuted",
    "C55_labels_refuted"
   ],
   "note": "Proved relative to the contract of the external QPBO solver (persistent labels), which C55_solver_exists shows satisfiable, and with exact numbers. Refuted: a factor with more than ten variables overflows an array; a model whose variables have not two labels; FusionMove may return something worse than the proposal."
  },
  {
   "property": "C56",
   "status": "partial",
   "theorems": [
    "C56_never_worse",
    "C56_no_expansion_improves",
    "C56_start",
    "C56_binary_optimal",
    "C56_order_refused",
    "C56_unequal_refuted",
    "C56_localopt_refuted",
    "C56_maximizer_refuted",
    "C56_order_length_refuted",
    "C56_empty_refuted"
   ],
   "note": "Proved relative to the contract of the external QPBO solver (C55_solver_exists), with exact numbers and equal numbers of labels. Refuted: unequal numbers of labels read a label that does not exist; LOCALOPT_LABEL takes factor indices for variable indices; the accumulation is ignored, Maximizer minimizes; an explicit order of another length or a model without variables reads an empty list."
  },
  {
   "property": "C57",
   "status": "partial",
   "theorems": [
    "C57_submodel",
    "C57_fuse",
    "C57_fuseQpbo",
    "C57_hl",
    "C57_hqpbo_solver",
    "C57_fuse_hqpbo",
    "C57_fuseFix",
    "C57_qp_exact_exists",
    "C57_unknown_refuted",
    "C57_fix_refuted",
    "C57_equal_no_value_refuted"
   ],
   "note": "Proved for every value type with the laws and every solver of the binary model; HQPBO is shown to be such a solver. Refuted: with a solver that reports UNKNOWN the value of the better argument is returned with the labeling argA; fuseFixQpbo negates the labels in factors of two and more variables but not in unary factors and in the result, so that it misses best fusions; HlFusionMover::fuse does not set the value for equal labelings. Ad3 is not modelled."
  },
  {
   "property": "C58",
   "status": "partial",
   "theorems": [
    "C58_never_worse",
    "C58_start",
    "C58_alpha_expansion",
    "C58_swap",
    "C58_generators",
    "C58_updown",
    "C58_swap_default_refuted",
    "C58_one_label_refuted",
    "C58_unknown_refuted",
    "C58_start_last_refuted"
   ],
   "note": "Proved for every history, visitor and value type with the laws. Refuted: with the default of k(k-1)/2 rounds the swap generator ends without trying all pairs of labels; UpDownGen and Random2Gen propose labels that do not exist for variables with one label; with a solver that reports UNKNOWN value() is not the value of arg(); of several unary factors of a variable only the last counts for the start. Not modelled: NonUniformRandomGen, RandomLFGen, BlurGen, EnergyBlurGen, DynamincGen."
  },
  {
   "property": "C59",
   "status": "partial",
   "theorems": [
    "C59_valid",
    "C59_optimal",
    "C59_bound",
    "C59_tight",
    "C59_stop",
    "C59_pairwise",
    "C59_solver_exists",
    "C59_select",
    "C59_multilabel",
    "C59_hoqpbo",
    "C59_tentacle_refuted",
    "C59_maximizer_refuted",
    "C59_bound_stop_refuted"
   ],
   "note": "Proved for every model, parameter, visitor and algorithm for the reduced models; tentacle elimination needs at least as many factors as variables (otherwise undefined, refuted). The partial optimality of QPBO, MQPBO and Kovtun's method is a hypothesis; that of the higher order method is proved, given persistency of QPBO on quadratic energies. Refuted: the higher order method minimizes also for a Maximizer; the bound it stores, visible if a visitor stops, leaves out the values at label 0."
  },
  {
   "property": "C60",
   "status": "partial",
   "theorems": [
    "C60_value",
    "C60_preserves",
    "C60_write",
    "C60_serialize",
    "C60_deserialize",
    "C60_arc",
    "C60_arc_optimal",
    "C60_immovable",
    "C60_two_unaries_refuted",
    "C60_no_unary_refuted",
    "C60_constant_refuted",
    "C60_failed_load_refuted",
    "C60_arc_no_unary_refuted",
    "C60_arc_ties_refuted",
    "C60_immovable_refuted",
    "C60_immovable_undefined_refuted",
    "C60_immovable_tight_refuted"
   ],
   "note": "Proved with exact numbers for every model, history and labeling. Refuted: variables with two unary factors or with none, factors without variables, a failed load leaves the storage changed, arc consistency with variables that have no unary factor is not optimality, equally good labels are rejected where the worst value of a factor is zero, immovable labels with different numbers of labels. Missing: the dual variables that TRWS itself computes and rounding."
  },
  {
   "property": "C61",
   "status": "partial",
   "theorems": [
    "C61_valid",
    "C61_solves",
    "C61_agreed",
    "C61_trees",
    "C61_solver_exists",
    "C61_maximizer_refuted"
   ],
   "note": "Proved for every model, operation with its laws, exact submodel solver, visitor and number of cycles. Refuted: the submodels are always minimized, so with the Maximizer the labeling need not be optimal. Supposed, not proved: the reparametrization that TRWS computes makes the agreed labels best in the factors whose variables all agree (C60 has this for getArcConsistency). Missing: the LP solvers themselves, rounding, files."
  },
  {
   "property": "C62",
   "status": "partial",
   "theorems": [
    "C62_valid",
    "C62_best",
    "C62_steps",
    "C62_marginals",
    "C62_no_start_refuted",
    "C62_best_refuted",
    "C62_cyclic_refuted",
    "C62_reset_refuted",
    "C62_empty_refuted"
   ],
   "note": "Proved for every model with a variable, operation and accumulation with their laws, history and random numbers. Refuted: without a starting point arg() stays all zero whatever is visited; the cyclic proposal changes only the variable with index one; after reset() the best value is stale; at most half of the iterations sample; a model without variables is undefined. Missing: probabilities (that the chain has the right distribution) and rounding."
  },
  {
   "property": "C63",
   "status": "partial",
   "theorems": [
    "C63_runs",
    "C63_labelings",
    "C63_integral_points",
    "C63_bound",
    "C63_exact",
    "C63_marginals",
    "C63_failure",
    "C63_solver_exists",
    "C63_exception_refuted",
    "C63_unary_refuted",
    "C63_repeated_refuted"
   ],
   "note": "Proved for every model, every history of legal calls and every truthful solver. Refuted: arg() after an exception of the solver reads a missing solution; factorVariable() of a unary factor is one everywhere; a constraint that names a variable twice keeps only the last coefficient. Missing: the solver itself, rounding and its tolerances, setStartingPoint()."
  },
  {
   "property": "C64",
   "status": "partial",
   "theorems": [
    "C64_decides",
    "C64_optimum",
    "C64_finder_exists",
    "C64_order",
    "C64_before_refuted",
    "C64_labels_refuted",
    "C64_single_label_refuted"
   ],
   "note": "Proved for every model and every correct component finder. Refuted: value() before infer() reads an empty vector; with more than two labels the others are ignored and value() can be false although a labeling satisfies all factors; with a single label infer() reads beyond a factor's values. Missing: boost's algorithm itself, visitors."
  },
  {
   "property": "C65",
   "status": "partial",
   "theorems": [
    "C65_runs",
    "C65_first",
    "C65_zero_start",
    "C65_start_refuted",
    "C65_nth_refuted",
    "C65_no_call_refuted",
    "C65_zero_nth_refuted"
   ],
   "note": "Proved for all models, shown labelings, visitors and fusion solvers. Refuted: in the first call a vector of zeros overwrites the labeling shown but its value is kept, so value() is not the value of arg() and arg() can be worse than all labelings shown; with fuseNth beyond numStopIt the inference is stopped before the first fusion; if the visitor is never called value() is the neutral element; fuseNth = 0 divides by zero. Missing: the inference itself is a list of labelings shown; bound()."
  },
  {
   "property": "C66",
   "status": "partial",
   "theorems": [
    "C66_infer",
    "C66_exact",
    "C66_no_variables",
    "C66_before_refuted",
    "C66_start_refuted"
   ],
   "note": "Proved for all models, inferences and histories. Refuted: arg() before infer() reads an empty vector; with maxSubgraphSize 0 the starting point is not looked at. Missing: variables with one label, where the LazyFlipper misbehaves (C39_one_label_refuted)."
  },
  {
   "property": "C67",
   "status": "partial",
   "theorems": [
    "C67_runs",
    "C67_optimal",
    "C67_order",
    "C67_value_refuted",
    "C67_parallel_refuted",
    "C67_gap_refuted"
   ],
   "note": "Proved for all multicut problems and inferences, over exact rationals. Refuted: value() is always zero; with parallel factors, or with a weight between the default threshold and zero, two variables stay together although separating them is better. Missing: rounding, visitors."
  },
  {
   "property": "C68",
   "status": "partial",
   "theorems": [
    "C68_new",
    "C68_initial",
    "C68_runs",
    "C68_value",
    "C68_isolated",
    "C68_local",
    "C68_no_variables_refuted",
    "C68_double_refuted",
    "C68_small_refuted",
    "C68_optimal_refuted"
   ],
   "note": "Proved for all models and iteration orders, over exact rationals. Refuted: a model without variables; with two factors on the same variables infer() can increase the value; with costs below the tolerances a single change can improve the result; the result need not be optimal. Missing: rounding, visitors."
  },
  {
   "property": "C69",
   "status": "partial",
   "theorems": [
    "C69_runs",
    "C69_unconnected",
    "C69_greedy",
    "C69_tree",
    "C69_no_variables_refuted",
    "C69_fixed_refuted",
    "C69_apart_refuted"
   ],
   "note": "Proved for all models, operations and accumulations with their laws. Refuted: a model without variables; factors with variables that are not fixed yet are not ignored, against the class documentation; variables in other components keep label zero. Missing: rounding."
  },
  {
   "property": "C70",
   "status": "partial",
   "theorems": [
    "C70_new",
    "C70_valid",
    "C70_chain",
    "C70_linked",
    "C70_best",
    "C70_edges",
    "C70_share",
    "C70_balance",
    "C70_no_variables_refuted",
    "C70_start_refuted",
    "C70_burn_in_refuted"
   ],
   "note": "Proved for all models, operations and accumulations with their laws, all conversions to probabilities that are not negative (positive for C70_balance) and all random numbers. Refuted: a model without variables; arg() with an initial state before reset(); states of the burn-in are not remembered. Missing: rounding; the distribution of the chain, of which C70_balance is the local condition; the marginal visitor, whose code is that of C62_marginals."
  },
  {
   "property": "C71",
   "status": "partial",
   "theorems": [
    "C71_new",
    "C71_values",
    "C71_solution_first",
    "C71_solution_value",
    "C71_labeling",
    "C71_solution_stale_refuted",
    "C71_solution_other_refuted",
    "C71_total_again_refuted",
    "C71_unary_factor_refuted",
    "C71_after_exception_refuted"
   ],
   "note": "Proved for all models, solvers and histories: getVariable, getVariableValue and getFactorValue; getTotalValue unless it has thrown since the last setVariable. getFactorVariable is right for a factor that was not asked for before and after setVariable and getFactorValue of this factor. Refuted: getFactorVariable after setVariable or after another factor; getTotalValue after an exception; the exception for a factor of one variable. Missing: rounding; the solver, which is a parameter."
  },
  {
   "property": "C72",
   "status": "partial",
   "theorems": [
    "C72_forest",
    "C72_links",
    "C72_same_tree",
    "C72_numbers",
    "C72_lone_refuted",
    "C72_nodes_again_refuted"
   ],
   "note": "Proved for all well-formed models. Refuted: a variable that shares no factor with another is in no tree; nodes() with a vector that is not empty appends to it. Missing: the entries that operator[] makes in the map for numbers that are no roots, which do not occur."
  },
  {
   "property": "C73",
   "status": "partial",
   "theorems": [
    "C73_chains",
    "C73_chains_throw",
    "C73_edges",
    "C73_edges_throw",
    "C73_grid",
    "C73_grid_accepted",
    "C73_variables",
    "C73_edges_order_refuted",
    "C73_edges_lone_refuted",
    "C73_constant_refuted",
    "C73_grid_extra_refuted",
    "C73_grid_order_refuted",
    "C73_grid_missing_refuted",
    "C73_grid_none_refuted"
   ],
   "note": "Proved for all well-formed models: chains, edges, grids that are accepted, and that every grid is accepted. Refuted: that edges refuse factors of three variables and have every variable, that constant factors are refused, that models that are no grids are refused. Missing: CheckUnaryFactors, which is not called."
  },
  {
   "property": "C74",
   "status": "partial",
   "theorems": [
    "C74_new",
    "C74_new_throw",
    "C74_move",
    "C74_history",
    "C74_marginals",
    "C74_evaluate",
    "C74_evaluate_refuted",
    "C74_back_labeling_refuted",
    "C74_back_first_refuted"
   ],
   "note": "Proved for all models with one value table for every variable, in exact arithmetic and for the minimizer. Refuted: evaluate when a factor has its variables in the opposite order; that the labeling after MoveBack has the objective value; that MoveBack is defined before other calls. Missing: IncreaseUnaryWeights, single steps by PushBack, SumProdSolver."
  },
  {
   "property": "C75",
   "status": "partial",
   "theorems": [
    "C75_returns",
    "C75_rows",
    "C75_times",
    "C75_exact",
    "C75_answer",
    "C75_logs",
    "C75_limit_refuted",
    "C75_logs_refuted",
    "C75_end_refuted",
    "C75_interval_refuted"
   ],
   "note": "Proved for all runs, with integer clock readings and rational values. Refuted: that the limit of the time stops a run that logs (the time before each log is lost); additional logs if not every step is recorded; that a second end counts no time twice; that an interval of 0 is defined. Missing: the memory log, the printed lines, values that are not numbers, additional logs with the names of the protocol itself."
  },
  {
   "property": "C76",
   "status": "partial",
   "theorems": [
    "C76_find",
    "C76_find_sound",
    "C76_sorted",
    "C76_double",
    "C76_find_refuted",
    "C76_three",
    "C76_history",
    "C76_three_refuted",
    "C76_not_true"
   ],
   "note": "Proved for all sequences of integers and every sorting of pairs that permutes and orders them. Refuted: the search in a sequence without elements is undefined; != with false is not the negation of ==; &= is not the conjunction of three values; a value need not equal the integer it was made of. Missing: iteratorAt, integers of a fixed width and casts between types."
  },
  {
   "property": "C77",
   "status": "proved",
   "theorems": [
    "C77_start",
    "C77_throw",
    "C77_few_refuted"
   ],
   "note": "The whole function, on the Partition of C01 and C02. Indices are unbounded naturals and weights are rational numbers. C77_few_refuted shows what happens outside of the statement: fewer weights than factors is undefined behaviour."
  },
  {
   "property": "C78",
   "status": "partial",
   "theorems": [
    "C78_pow",
    "C78_exact",
    "C78_loss",
    "C78_loss_values",
    "C78_sign_refuted"
   ],
   "note": "The power is proved in full with the arithmetic of 64 bits. The loss is proved with integer values. Refuted: that no kind of loss is negative, since the Hamming loss is the negative of what the others would be. Missing: loss values of floating point, labels that do not fit into int."
  }
 ]
}