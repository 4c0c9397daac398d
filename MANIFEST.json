{
 "claims": [
  {
   "property": "C01",
   "status": "proved",
   "theorems": [
    "C01_query_exact",
    "C01_query_exact_any_table"
   ],
   "note": ""
  },
  {
   "property": "C02",
   "status": "proved",
   "theorems": [
    "C02_distributions"
   ],
   "note": ""
  },
  {
   "property": "C03",
   "status": "proved",
   "theorems": [
    "C03_no_internal_failure"
   ],
   "note": ""
  },
  {
   "property": "C04",
   "status": "proved",
   "theorems": [
    "C04_evidence_validated"
   ],
   "note": "An observation named 'self' is a TypeError of the call itself, before query runs."
  },
  {
   "property": "C05",
   "status": "proved",
   "theorems": [
    "C05_junction_tree",
    "C05_only_connected"
   ],
   "note": ""
  },
  {
   "property": "C06",
   "status": "proved",
   "theorems": [
    "C06_network_recovered"
   ],
   "note": ""
  },
  {
   "property": "C07",
   "status": "partial",
   "theorems": [
    "C07_samples_partial",
    "C07_zero_draw_refuted",
    "C07_zero_draw_crash_refuted"
   ],
   "note": "Proved for random numbers in (0,1]; for the number 0, which random.random can return, the property is false and refuted."
  },
  {
   "property": "C08",
   "status": "proved",
   "theorems": [
    "C08_histories",
    "C08_stored_cpds"
   ],
   "note": ""
  },
  {
   "property": "C09",
   "status": "proved",
   "theorems": [
    "C09_truncated_factorisation"
   ],
   "note": ""
  },
  {
   "property": "C10",
   "status": "proved",
   "theorems": [
    "C10_failed_interventions"
   ],
   "note": ""
  },
  {
   "property": "C11",
   "status": "partial",
   "theorems": [
    "C11_queries_after_do_refuted",
    "C11_queries_after_do_partial"
   ],
   "note": "False as stated: refuted for the chain A->B->C. Proved: a query succeeds exactly when the cut network is connected."
  },
  {
   "property": "C12",
   "status": "partial",
   "theorems": [
    "C12_valid_origins_partial",
    "C12_invalid_origin_raises",
    "C12_valid_origins_refuted"
   ],
   "note": "False as stated: a per-edge dictionary or weight='origin' sets any origin. Proved for histories whose dictionaries bring no other origin; that an invalid origin argument raises and changes nothing is proved in full."
  },
  {
   "property": "C13",
   "status": "proved",
   "theorems": [
    "C13_last_origin",
    "C13_additions"
   ],
   "note": ""
  },
  {
   "property": "C14",
   "status": "partial",
   "theorems": [
    "C14_replaced_refuted",
    "C14_replaced_partial"
   ],
   "note": "False as stated: attributes of the old edge survive. Proved: the call's attributes win and nothing else changes."
  },
  {
   "property": "C15",
   "status": "proved",
   "theorems": [
    "C15_threshold",
    "C15_unweighted"
   ],
   "note": ""
  },
  {
   "property": "C16",
   "status": "proved",
   "theorems": [
    "C16_till_dag",
    "C16_unweighted"
   ],
   "note": ""
  },
  {
   "property": "C17",
   "status": "proved",
   "theorems": [
    "C17_target_subgraph",
    "C17_largest_subgraph"
   ],
   "note": ""
  },
  {
   "property": "C18",
   "status": "partial",
   "theorems": [
    "C18_constructor_partial",
    "C18_single_node_refuted"
   ],
   "note": "Acceptance is proved in full; equality of nodes is false for a single isolated node (refuted) and proved for structures with an edge."
  },
  {
   "property": "C19",
   "status": "proved",
   "theorems": [
    "C19_states_set",
    "C19_numbering",
    "C19_states_fitted"
   ],
   "note": ""
  },
  {
   "property": "C20",
   "status": "proved",
   "theorems": [
    "C20_fitted_cpds"
   ],
   "note": ""
  },
  {
   "property": "C21",
   "status": "partial",
   "theorems": [
    "C21_probabilities_partial",
    "C21_best_state",
    "C21_parent_named_like_result_refuted",
    "C21_silent_refuted"
   ],
   "note": "predict is proved in full; predict_probability is false when a parent is named {node}_{state}: the call raises, or silently returns wrong numbers (refuted), proved otherwise."
  },
  {
   "property": "C22",
   "status": "partial",
   "theorems": [
    "C22_labels_refuted",
    "C22_node_column_needed_refuted",
    "C22_labels_partial"
   ],
   "note": "False as stated: codes instead of states are returned. Proved: the answer is the position of a state in sorted order."
  },
  {
   "property": "C23",
   "status": "partial",
   "theorems": [
    "C23_roc_pairs_partial",
    "C23_lstrip_refuted",
    "C23_integer_order_refuted"
   ],
   "note": "False as stated: lstrip removes characters of the state, and integer states are sorted as strings on one side only. Proved when no state starts with a character of the node's name or an underscore and the states' order is that of their strings."
  },
  {
   "property": "C24",
   "status": "proved",
   "theorems": [
    "C24_buckets"
   ],
   "note": ""
  },
  {
   "property": "C25",
   "status": "proved",
   "theorems": [
    "C25_split_points",
    "C25_uniform",
    "C25_quantiles",
    "C25_quantile_buckets"
   ],
   "note": ""
  },
  {
   "property": "C26",
   "status": "proved",
   "theorems": [
    "C26_validation",
    "C26_fixed_not_fitted",
    "C26_fit_outcome",
    "C26_bucket_number_refuted"
   ],
   "note": "The last theorem records that the number of buckets is not validated."
  },
  {
   "property": "C27",
   "status": "proved",
   "theorems": [
    "C27_frame_rows",
    "C27_array_rows",
    "C27_fit",
    "C27_validation",
    "C27_repeated_index_refuted"
   ],
   "note": "Repeated time indices are accepted and then the alignment is lost (last theorem)."
  },
  {
   "property": "C28",
   "status": "proved",
   "theorems": [
    "C28_no_gap"
   ],
   "note": ""
  },
  {
   "property": "C29",
   "status": "proved",
   "theorems": [
    "C29_tabu_numpy",
    "C29_tabu_numpy_lasso",
    "C29_tabu_pandas",
    "C29_tabu_pandas_lasso",
    "C29_unknown_column"
   ],
   "note": ""
  },
  {
   "property": "C30",
   "status": "partial",
   "theorems": [
    "C30_pandas",
    "C30_pandas_lasso",
    "C30_pandas_is_numpy",
    "C30_numpy_partial",
    "C30_numpy_lasso_partial",
    "C30_numpy_origin_refuted",
    "C30_numpy_dynamic_partial",
    "C30_numpy_dynamic_origin_refuted",
    "C30_torch",
    "C30_torch_linear"
   ],
   "note": "Everything is proved for data frames; for arrays everything but the origin, which is not learned but unknown (refuted)."
  },
  {
   "property": "C31",
   "status": "partial",
   "theorems": [
    "C31_dual_ascent",
    "C31_numpy_partial",
    "C31_calls_partial",
    "C31_dynamic_partial",
    "C31_refuted",
    "C31_torch_partial",
    "C31_torch_refuted"
   ],
   "note": "Proved whenever the penalty of the returned points is not infinite; an overflowing penalty makes the loop endless (refuted)."
  },
  {
   "property": "C32",
   "status": "proved",
   "theorems": [
    "C32_exp",
    "C32_poly"
   ],
   "note": "Exact real arithmetic."
  },
  {
   "property": "C33",
   "status": "proved",
   "theorems": [
    "C33_numpy",
    "C33_numpy_lasso",
    "C33_pandas",
    "C33_pandas_lasso",
    "C33_poly",
    "C33_numpy_dynamic",
    "C33_pandas_dynamic",
    "C33_no_threshold_refuted",
    "C33_torch_matrix",
    "C33_torch_linear"
   ],
   "note": "The last theorem is the second half of the statement: without a threshold a structure below the tolerance can have a cycle."
  },
  {
   "property": "C34",
   "status": "proved",
   "theorems": [
    "C34_numpy",
    "C34_pandas"
   ],
   "note": ""
  },
  {
   "property": "C35",
   "status": "proved",
   "theorems": [
    "C35_pandas",
    "C35_effects",
    "C35_names_distinct"
   ],
   "note": ""
  },
  {
   "property": "C36",
   "status": "proved",
   "theorems": [
    "C36_tabu_numpy",
    "C36_tabu_pandas",
    "C36_tabu_collapsed",
    "C36_columns"
   ],
   "note": ""
  },
  {
   "property": "C37",
   "status": "proved",
   "theorems": [
    "C37_forward",
    "C37_banned"
   ],
   "note": ""
  },
  {
   "property": "C38",
   "status": "partial",
   "theorems": [
    "C38_collapsed_partial",
    "C38_no_threshold_partial",
    "C38_pandas_partial",
    "C38_refuted"
   ],
   "note": "The sums are proved in full. The edge equivalence is false with a threshold (refuted) and proved without one."
  },
  {
   "property": "C39",
   "status": "partial",
   "theorems": [
    "C39_names_partial",
    "C39_refuted"
   ],
   "note": "False as stated: column a with categories and a column a1. Proved when no column name is another one followed by digits."
  },
  {
   "property": "C40",
   "status": "proved",
   "theorems": [
    "C40_probabilities",
    "C40_odds",
    "C40_one_category_refuted"
   ],
   "note": "Real arithmetic. The last theorem records that with one category there are no probabilities but an IndexError."
  },
  {
   "property": "C41",
   "status": "partial",
   "theorems": [
    "C41_no_children_partial",
    "C41_clash_refuted"
   ],
   "note": "Proved when no column name is another one followed by digits; with such a clash it is false."
  },
  {
   "property": "C42",
   "status": "partial",
   "theorems": [
    "C42_regressor",
    "C42_classifier_partial",
    "C42_refuted"
   ],
   "note": "Proved for regressors, and for classifiers with a given target type or whose fits all have two or all more classes. Otherwise false."
  },
  {
   "property": "C43",
   "status": "partial",
   "theorems": [
    "C43_regressor_partial",
    "C43_classifier_partial",
    "C43_refuted",
    "C43_ordinal_refuted"
   ],
   "note": "Proved if no feature is categorical (and the target of a classifier not ordinal); false otherwise."
  },
  {
   "property": "C44",
   "status": "proved",
   "theorems": [
    "C44_outcome",
    "C44_structure",
    "C44_full",
    "C44_no_degree",
    "C44_scale_free",
    "C44_degree_refuted",
    "C44_zero_weights_refuted"
   ],
   "note": "The two refuted theorems record graphs without edges that the documentation does not mention."
  },
  {
   "property": "C45",
   "status": "partial",
   "theorems": [
    "C45_independent_partial",
    "C45_succeeds_partial",
    "C45_equations_partial",
    "C45_coding_partial",
    "C45_clash_refuted"
   ],
   "note": "Proved for all schemas in which no category has the name of another variable; with such a clash the output contains uninitialised memory."
  },
  {
   "property": "C46",
   "status": "proved",
   "theorems": [
    "C46_outcome",
    "C46_structure",
    "C46_edges"
   ],
   "note": ""
  },
  {
   "property": "C47",
   "status": "partial",
   "theorems": [
    "C47_one_lag_partial",
    "C47_labels_refuted"
   ],
   "note": "True for one lag; false for two or more lags, for every generated structure."
  },
  {
   "property": "C48",
   "status": "partial",
   "theorems": [
    "C48_partition_partial",
    "C48_getters_partial",
    "C48_clash_refuted"
   ],
   "note": "Proved for schemas of the documented types without a name clash; with a clash the claim is false."
  },
  {
   "property": "C49",
   "status": "partial",
   "theorems": [
    "C49_accepts",
    "C49_well_formed_partial",
    "C49_refuted"
   ],
   "note": "The accepted schemas are characterised exactly; types that do not exist are accepted too, and some of them cannot be mapped."
  },
  {
   "property": "C50",
   "status": "proved",
   "theorems": [
    "C50_inverse_cdf",
    "C50_probability"
   ],
   "note": "Exact real arithmetic."
  },
  {
   "property": "C51",
   "status": "partial",
   "theorems": [
    "C51_gradient_partial",
    "C51_power_of_two",
    "C51_no_alpha",
    "C51_end_refuted",
    "C51_range_refuted",
    "C51_alpha_refuted",
    "C51_zero_refuted"
   ],
   "note": "Exact double arithmetic (Flocq): every channel of every color within one of the exact value for all colors and step counts below 2^53; exact ends and range for powers of two; the claim as stated is false for some step counts, for colors without alpha and for zero steps."
  },
  {
   "property": "C52",
   "status": "proved",
   "theorems": [
    "C52_precedence"
   ],
   "note": "Attribute dictionaries are heap objects; the whole heap that existed before the call is kept."
  },
  {
   "property": "C53",
   "status": "partial",
   "theorems": [
    "C53_names_refuted",
    "C53_names_partial"
   ],
   "note": "False as stated: names that begin with a digit, and the name self."
  },
  {
   "property": "C54",
   "status": "proved",
   "theorems": [
    "C54_data_to_answers"
   ],
   "note": ""
  },
  {
   "property": "C55",
   "status": "proved",
   "theorems": [
    "C55_report_labels"
   ],
   "note": ""
  },
  {
   "property": "C56",
   "status": "proved",
   "theorems": [
    "C56_accepts"
   ],
   "note": ""
  },
  {
   "property": "C57",
   "status": "partial",
   "theorems": [
    "C57_bias_linear_partial",
    "C57_bias_hidden_refuted"
   ],
   "note": "True without hidden layers, false with them."
  },
  {
   "property": "C58",
   "status": "partial",
   "theorems": [
    "C58_regressor_partial",
    "C58_classifier_partial",
    "C58_regressor_rows_partial",
    "C58_classifier_rows_partial",
    "C58_arrays",
    "C58_index_refuted",
    "C58_order_refuted"
   ],
   "note": "Proved for equal indices, which then do not matter: each observation is learned from with its own target; false otherwise since pandas aligns the rows."
  },
  {
   "property": "C59",
   "status": "partial",
   "theorems": [
    "C59_predictions_partial",
    "C59_binary_refuted",
    "C59_string_array_refuted"
   ],
   "note": "Proved for all types of target without ordinal features, clashing names or unseen categories; type bin with three classes gives two probabilities."
  },
  {
   "property": "C60",
   "status": "partial",
   "theorems": [
    "C60_regressor_partial",
    "C60_classifier_partial",
    "C60_threshold_refuted",
    "C60_ordinal_two_refuted",
    "C60_ordinal_refuted"
   ],
   "note": "Proved without a threshold for features that are not categorical or ordinal. With a threshold and with ordinal features it is false."
  },
  {
   "property": "C61",
   "status": "partial",
   "theorems": [
    "C61_unfitted_partial",
    "C61_types",
    "C61_refuted"
   ],
   "note": "Proved without standardize; with standardize, and after a failed first fit, an AttributeError is raised."
  },
  {
   "property": "C62",
   "status": "partial",
   "theorems": [
    "C62_integers_partial",
    "C62_refuted"
   ],
   "note": "True without standardize; with it the scaled values are cut to integers."
  },
  {
   "property": "C63",
   "status": "partial",
   "theorems": [
    "C63_clone_partial",
    "C63_refuted"
   ],
   "note": "True if neither target_dist_type nor additional arguments are given; these are lost."
  },
  {
   "property": "C64",
   "status": "proved",
   "theorems": [
    "C64_acyclic",
    "C64_tabu"
   ],
   "note": ""
  },
  {
   "property": "C65",
   "status": "partial",
   "theorems": [
    "C65_rejected_partial",
    "C65_refuted",
    "C65_classifier_refuted"
   ],
   "note": "Proved for data that the first check rejects; other failures leave a mixed state."
  },
  {
   "property": "C66",
   "status": "partial",
   "theorems": [
    "C66_regressor_partial",
    "C60_ordinal_two_refuted"
   ],
   "note": "Proved without ordinal features and clashing names; with a binary ordinal feature predict raises."
  },
  {
   "property": "C67",
   "status": "partial",
   "theorems": [
    "C67_both_partial",
    "C67_majority_refuted",
    "C67_constant_refuted"
   ],
   "note": "Both labels occur if the latent values are distinct; equal values all get 0, and heavily imbalanced signs are inverted."
  },
  {
   "property": "C68",
   "status": "partial",
   "theorems": [
    "C68_checked_partial",
    "C68_accepted_refuted"
   ],
   "note": "Names are only checked when used, and against one list for all types."
  },
  {
   "property": "C69",
   "status": "partial",
   "theorems": [
    "C69_independent_partial",
    "C69_succeeds_partial",
    "C69_equations_partial",
    "C69_one_sample_refuted"
   ],
   "note": "As for C45 without clashing names; for samplers that evaluate one function in all batches. One sample raises IndexError."
  },
  {
   "property": "C70",
   "status": "proved",
   "theorems": [
    "C70_plain_data"
   ],
   "note": ""
  },
  {
   "property": "C71",
   "status": "partial",
   "theorems": [
    "C71_equations_partial",
    "C71_accepts",
    "C71_no_samples_refuted"
   ],
   "note": "Proved for n_samples > 0; n_samples=0 returns the burn-in rows."
  },
  {
   "property": "C72",
   "status": "partial",
   "theorems": [
    "C72_result_partial",
    "C72_ends_partial",
    "C72_last_trial_refuted",
    "C72_no_lags_refuted"
   ],
   "note": "The last trial's data are always replaced by ones; with p=0 and positive degrees the search never ends. Termination is relative to suitable structures turning up."
  },
  {
   "property": "C73",
   "status": "proved",
   "theorems": [
    "C73_objective",
    "C73_objective_lasso",
    "C73_objective_dynamic",
    "C73_gradient",
    "C73_gradient_lasso",
    "C73_gradient_dynamic"
   ],
   "note": "Over the real numbers."
  },
  {
   "property": "C74",
   "status": "proved",
   "theorems": [
    "C74_lasso",
    "C74_dynamic"
   ],
   "note": "Over the real numbers."
  },
  {
   "property": "C75",
   "status": "proved",
   "theorems": [
    "C75_likelihood",
    "C75_single_category_raises"
   ],
   "note": "Over the real numbers; for data suitable for their kind (0/1, counts, two categories)."
  },
  {
   "property": "C76",
   "status": "partial",
   "theorems": [
    "C76_bounded_partial",
    "C76_unbounded",
    "C76_refuted"
   ],
   "note": "True if the values of binary columns lie in [0,1]; a binary column coded 1/2 is accepted and makes the objective unbounded."
  },
  {
   "property": "C77",
   "status": "proved",
   "theorems": [
    "C77_balanced"
   ],
   "note": "For the non-ordinal columns; over the real numbers."
  },
  {
   "property": "C78",
   "status": "proved",
   "theorems": [
    "C78_nondescendants"
   ],
   "note": "For queries that return; a query after an intervention that disconnects the graph raises (C11)."
  },
  {
   "property": "C79",
   "status": "proved",
   "theorems": [
    "C79_local_markov"
   ],
   "note": ""
  },
  {
   "property": "C80",
   "status": "proved",
   "theorems": [
    "C80_doing_is_seeing"
   ],
   "note": "For queries that return."
  },
  {
   "property": "C81",
   "status": "proved",
   "theorems": [
    "C81_adjustment"
   ],
   "note": "For queries that return; under the stated positivity."
  },
  {
   "property": "C82",
   "status": "proved",
   "theorems": [
    "C82_irrelevant_evidence"
   ],
   "note": "d-separation in the form of the moral graph of the ancestors."
  },
  {
   "property": "C83",
   "status": "proved",
   "theorems": [
    "C83_maximum_likelihood"
   ],
   "note": ""
  },
  {
   "property": "C84",
   "status": "proved",
   "theorems": [
    "C84_states",
    "C84_tables",
    "C84_repeated"
   ],
   "note": ""
  },
  {
   "property": "C85",
   "status": "proved",
   "theorems": [
    "C85_predict",
    "C85_predict_probability",
    "C85_row_order"
   ],
   "note": "pgmpy's answer for rows with missing parents is an oracle that is asked row by row."
  },
  {
   "property": "C86",
   "status": "proved",
   "theorems": [
    "C86_law"
   ],
   "note": "For random numbers in (0,1]; random.random can return 0 (C07)."
  },
  {
   "property": "C87",
   "status": "proved",
   "theorems": [
    "C87_penalty",
    "C87_stationary",
    "C87_gradient"
   ],
   "note": "Over the real numbers."
  },
  {
   "property": "C88",
   "status": "proved",
   "theorems": [
    "C88_plain",
    "C88_lasso",
    "C88_dynamic"
   ],
   "note": "For exact minima; the run of scipy's optimiser is not modelled."
  },
  {
   "property": "C89",
   "status": "partial",
   "theorems": [
    "C89_common_unit_partial",
    "C89_direction",
    "C89_refuted"
   ],
   "note": "False: for every data set of two non-orthogonal columns the unit of one column decides the direction of the best edge. True for one unit common to all columns."
  },
  {
   "property": "C90",
   "status": "proved",
   "theorems": [
    "C90_d_separation"
   ],
   "note": ""
  },
  {
   "property": "C91",
   "status": "proved",
   "theorems": [
    "C91_far_intervention"
   ],
   "note": "For queries that return."
  },
  {
   "property": "C92",
   "status": "proved",
   "theorems": [
    "C92_given_value",
    "C92_doing_is_seeing"
   ],
   "note": "For queries that return. Generalises C80."
  },
  {
   "property": "C93",
   "status": "proved",
   "theorems": [
    "C93_back_door"
   ],
   "note": "For queries that return; under the stated positivity. Generalises C81."
  },
  {
   "property": "C94",
   "status": "proved",
   "theorems": [
    "C94_equivalent_structures",
    "C94_k2_differs",
    "C94_interventions_differ"
   ],
   "note": ""
  },
  {
   "property": "C95",
   "status": "proved",
   "theorems": [
    "C95_frequencies",
    "C95_unlinked_parents_differ"
   ],
   "note": ""
  },
  {
   "property": "C96",
   "status": "proved",
   "theorems": [
    "C96_more_edges"
   ],
   "note": ""
  },
  {
   "property": "C97",
   "status": "proved",
   "theorems": [
    "C97_area",
    "C97_perfect",
    "C97_counts",
    "C97_single_state"
   ],
   "note": "With scikit-learn's roc_curve and auc modelled in exact arithmetic; for the state names of C23."
  },
  {
   "property": "C98",
   "status": "proved",
   "theorems": [
    "C98_report"
   ],
   "note": "With scikit-learn's report (version 0.22) modelled in exact arithmetic."
  },
  {
   "property": "C99",
   "status": "partial",
   "theorems": [
    "C99_missing_partial",
    "C99_present_partial",
    "C99_engine",
    "C99_descendants_refuted"
   ],
   "note": "Proved when a parent is missing from the data, and when all are present and no column is a descendant of the node; false otherwise: then only the parents are looked at. pgmpy's variable elimination is modelled by the product of the tables."
  },
  {
   "property": "C100",
   "status": "partial",
   "theorems": [
    "C100_present_partial",
    "C100_missing_partial",
    "C100_missing_refuted",
    "C100_descendants_refuted"
   ],
   "note": "Proved when all parents and no descendants are in the data. With missing parents the answer is the node's part of a most probable completion of the whole row, which need not be its most probable state; descendants are ignored when all parents are present."
  },
  {
   "property": "C101",
   "status": "proved",
   "theorems": [
    "C101_nothing_excluded",
    "C101_mixture"
   ],
   "note": ""
  },
  {
   "property": "C102",
   "status": "proved",
   "theorems": [
    "C102_order",
    "C102_bayes",
    "C102_total_probability",
    "C102_observing"
   ],
   "note": ""
  },
  {
   "property": "C103",
   "status": "proved",
   "theorems": [
    "C103_exactly"
   ],
   "note": ""
  },
  {
   "property": "C104",
   "status": "proved",
   "theorems": [
    "C104_units",
    "C104_order",
    "C104_refit"
   ],
   "note": "In exact arithmetic."
  },
  {
   "property": "C105",
   "status": "partial",
   "theorems": [
    "C105_lasso",
    "C105_pandas_lasso",
    "C105_dynamic",
    "C105_pandas_dynamic",
    "C105_plain_partial",
    "C105_pandas_plain_partial",
    "C105_refuted"
   ],
   "note": "Proved for lasso and DYNOTEARS. False for plain NOTEARS: edges whose absolute weight is exactly t are dropped by the learner and kept by remove_edges_below_threshold; proved for all other edges."
  },
  {
   "property": "C106",
   "status": "proved",
   "theorems": [
    "C106_copies",
    "C106_reverse",
    "C106_constructor",
    "C106_undirected"
   ],
   "note": "networkx 2.5 methods modelled; graph and node attributes are left out."
  },
  {
   "property": "C107",
   "status": "proved",
   "theorems": [
    "C107_front_door"
   ],
   "note": ""
  },
  {
   "property": "C108",
   "status": "partial",
   "theorems": [
    "C108_graph",
    "C108_fit_again",
    "C108_fit_cpds_again",
    "C108_refused_partial",
    "C108_refused_refuted"
   ],
   "note": "Proved for node_states, fit_node_states and fit_cpds. False for fit_node_states_and_cpds: if its second part raises, the new states stay and the old CPDs are reported under the new labels."
  },
  {
   "property": "C109",
   "status": "proved",
   "theorems": [
    "C109_new_network",
    "C109_no_cpds",
    "C109_bad_name",
    "C109_identifiers",
    "C109_discretiser",
    "C109_coefficients"
   ],
   "note": ""
  },
  {
   "property": "C110",
   "status": "partial",
   "theorems": [
    "C110_numpy",
    "C110_pandas",
    "C110_dynamic_partial",
    "C110_dynamic_refuted",
    "C110_pandas_dynamic"
   ],
   "note": "Proved except that from_numpy_dynamic does not refuse missing or infinite values."
  },
  {
   "property": "C111",
   "status": "proved",
   "theorems": [
    "C111_in_force",
    "C111_commute",
    "C111_last_wins",
    "C111_state_or_dict",
    "C111_acceptance_refuted"
   ],
   "note": "C111_acceptance_refuted shows why the swap needs an engine that still answers."
  },
  {
   "property": "C112",
   "status": "proved",
   "theorems": [
    "C112_objective",
    "C112_numpy",
    "C112_pandas",
    "C112_numpy_lasso",
    "C112_pandas_lasso",
    "C112_dynamic",
    "C112_pandas_dynamic"
   ],
   "note": "The optimiser is a hypothesis: given bounds that allow exactly the open edges, its answers are minima (met by an optimiser in the Examples)."
  },
  {
   "property": "C113",
   "status": "proved",
   "theorems": [
    "C113_regressor",
    "C113_classifier",
    "C113_deviations",
    "C113_standardised",
    "C113_moments"
   ],
   "note": "Arithmetic is exact; the standard deviation is an oracle that scales with the unit (C113_deviations shows that true standard deviations do)."
  },
  {
   "property": "C114",
   "status": "proved",
   "theorems": [
    "C114_numpy",
    "C114_pandas",
    "C114_numpy_lasso",
    "C114_pandas_lasso",
    "C114_dynamic",
    "C114_pandas_dynamic"
   ],
   "note": "The optimiser and the matrix exponential are oracles; the theorem assumes that the answers to the questions actually asked (rho > 0, alpha >= 0) are within eps of the minimum, which covers exact minimisation by eps = 0. Arithmetic is exact."
  },
  {
   "property": "C115",
   "status": "proved",
   "theorems": [
    "C115_numpy",
    "C115_pandas",
    "C115_numpy_lasso",
    "C115_pandas_lasso",
    "C115_dynamic",
    "C115_pandas_dynamic",
    "C115_defaults"
   ],
   "note": "The warning is the value the run computes before logging it. The penalty the optimiser sees is the exact exponential; the penalty the loop computes is within delta of it and not negative. The sizes 10^19 and 4 come from the outer loop: the penalty weight is multiplied by 10 up to 1e20, and the penalty has to shrink to a quarter per round."
  },
  {
   "property": "C116",
   "status": "proved",
   "theorems": [
    "C116_remove_edge",
    "C116_remove_edges_from",
    "C116_remove_node",
    "C116_add_edges_from",
    "C116_add_weighted"
   ],
   "note": ""
  },
  {
   "property": "C117",
   "status": "proved",
   "theorems": [
    "C117_unknown_node",
    "C117_predict_complete",
    "C117_probability_complete",
    "C117_incomplete"
   ],
   "note": "Rows with unknown values when a parent is missing from the data are not classified."
  },
  {
   "property": "C118",
   "status": "proved",
   "theorems": [
    "C118_numpy",
    "C118_pandas",
    "C118_numpy_lasso",
    "C118_pandas_lasso",
    "C118_dynamic",
    "C118_pandas_dynamic",
    "C118_torch",
    "C118_torch_pandas"
   ],
   "note": "The bounds handed to the optimiser are stated for every learner; for the torch learner (torch_asks in TorchExact.v) on rectangular data with bans that name variables."
  },
  {
   "property": "C119",
   "status": "proved",
   "theorems": [
    "C119_colors",
    "C119_states",
    "C119_report",
    "C119_dynamic_data",
    "C119_weights",
    "C119_torch",
    "C119_torch_frame"
   ],
   "note": ""
  },
  {
   "property": "C120",
   "status": "proved",
   "theorems": [
    "C120_any_structure",
    "C120_notears",
    "C120_torch",
    "C120_discretised",
    "C120_end_to_end"
   ],
   "note": "The reached structures include those after any further calls of the user between the steps."
  },
  {
   "property": "C121",
   "status": "proved",
   "theorems": [
    "C121_structure",
    "C121_lagged_data",
    "C121_end_to_end"
   ],
   "note": "As C120, for time series; the variable names are strings."
  },
  {
   "property": "C122",
   "status": "proved",
   "theorems": [
    "C122_observations",
    "C122_exchange",
    "C122_actions"
   ],
   "note": "Rules 1, 2 and 3 for sets of variables and any interventions already in force (by value or by distribution). That the evidence can occur is required of the answered queries themselves: some probability in the answer is not zero."
  },
  {
   "property": "C123",
   "status": "proved",
   "theorems": [
    "C123_numpy",
    "C123_pandas",
    "C123_numpy_lasso",
    "C123_pandas_lasso",
    "C123_dynamic",
    "C123_pandas_dynamic",
    "C123_torch",
    "C123_torch_pandas",
    "C123_one_outcome"
   ],
   "note": "The method is a transition relation of its own (AscentSpec.v); C123_one_outcome says that it has one outcome. The optimiser and the penalty function are arbitrary."
  },
  {
   "property": "C124",
   "status": "proved",
   "theorems": [
    "C124_best",
    "C124_converges",
    "C124_acyclic",
    "C124_pandas"
   ],
   "note": "The optimiser and the penalty function are arbitrary up to the stated closeness. The lower bound of the objective that C124_converges takes exists by C76. The exact bounds (torch_asks) are also part of C118_torch and C123_torch."
  },
  {
   "property": "C125",
   "status": "proved",
   "theorems": [
    "C125_consistent",
    "C125_limit"
   ],
   "note": "C125_limit is the statement for a sequence of data frames. Values come from a fixed finite list per column. Exact arithmetic in the model (Qc)."
  },
  {
   "property": "C126",
   "status": "proved",
   "theorems": [
    "C126_probably"
   ],
   "note": "The draws are made explicit: all samples with the product of the weights (draws); likely_sound shows that nothing impossible is likely. The proof is Chebyshev's inequality for the frequencies of families and C125."
  },
  {
   "property": "C127",
   "status": "proved",
   "theorems": [
    "C127_effects",
    "C127_probably",
    "C127_population"
   ],
   "note": "The population after the intervention is defined by reweighting individuals (intervened); C127_population shows that this is the intended population: causes unchanged, the value drawn independently of the causes, everything else unchanged given both. Success of do_intervention and of the query are hypotheses, since queries fail when the cut disconnects the network (C11)."
  },
  {
   "property": "C128",
   "status": "proved",
   "theorems": [
    "C128_tables",
    "C128_weights",
    "C128_missing"
   ],
   "note": "The network described by the tables is defined in CondSpec.v by looking up the row whose parents have the given values. Evidence cannot be named self (query is a method taking keyword arguments)."
  },
  {
   "property": "C129",
   "status": "proved",
   "theorems": [
    "C129_vote",
    "C129_estimator",
    "C129_training",
    "C129_more_parents"
   ],
   "note": "Concerns predict with all parents among the columns; with missing parents the numbers of the estimator matter."
  },
  {
   "property": "C130",
   "status": "proved",
   "theorems": [
    "C130_best",
    "C130_probably",
    "C130_children_refuted"
   ],
   "note": "Populations are finite lists of kinds of individuals with positive real weights. C130_children_refuted shows that the restriction to nodes before v is needed."
  },
  {
   "property": "C131",
   "status": "proved",
   "theorems": [
    "C131_structure",
    "C131_plot",
    "C131_enforced",
    "C131_errors",
    "C131_merge_refuted"
   ],
   "note": "pygraphviz, IPython and matplotlib are taken to be installed; what Graphviz draws from the figure is not modelled. C131_merge_refuted shows that keywords do not merge with the defaults of plot_dag."
  },
  {
   "property": "C132",
   "status": "proved",
   "theorems": [
    "C132_source",
    "C132_tells",
    "C132_order",
    "C132_names_refuted"
   ],
   "note": "C132_names_refuted shows that the condition on names is needed for telling networks apart."
  },
  {
   "property": "C133",
   "status": "proved",
   "theorems": [
    "C133_held_out",
    "C133_report",
    "C133_best",
    "C133_probably"
   ],
   "note": "Shares are real numbers; draws are independent."
  },
  {
   "property": "C134",
   "status": "proved",
   "theorems": [
    "C134_held_out",
    "C134_training",
    "C134_priors",
    "C134_probably",
    "C134_prior_refuted"
   ],
   "note": "Shares are real numbers. C134_prior_refuted shows that maximum likelihood is needed for the exact statement."
  },
  {
   "property": "C135",
   "status": "proved",
   "theorems": [
    "C135_best",
    "C135_unique",
    "C135_more_parents",
    "C135_held_out",
    "C135_probably",
    "C135_prior_refuted"
   ],
   "note": "Rules give real numbers. C135_prior_refuted shows that maximum likelihood is needed on the training data."
  }
 ]
}