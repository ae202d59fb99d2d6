{
 "claims": [
  {
   "property": "C01",
   "status": "proved",
   "theorems": [
    "C01_linear_chain_sum"
   ],
   "note": "every commutative semiring; length 0 behaves as length 1"
  },
  {
   "property": "C02",
   "status": "proved",
   "theorems": [
    "C02_padding_invariant"
   ],
   "note": ""
  },
  {
   "property": "C03",
   "status": "proved",
   "theorems": [
    "C03_linear_chain_rows",
    "C03_semi_markov_rows",
    "C03_tree_rows",
    "C03_cfg_rows",
    "C03_dependency_rows"
   ],
   "note": "for arbitrary semiring operations, no laws needed"
  },
  {
   "property": "C04",
   "status": "proved",
   "theorems": [
    "C04_semi_markov_sum"
   ],
   "note": ""
  },
  {
   "property": "C05",
   "status": "proved",
   "theorems": [
    "C05_scan_is_standard",
    "C05_standard_sum",
    "C05_zero_length_refuted"
   ],
   "note": "agreement on a row of length zero is refuted"
  },
  {
   "property": "C06",
   "status": "proved",
   "theorems": [
    "C06_tree_sum"
   ],
   "note": ""
  },
  {
   "property": "C07",
   "status": "proved",
   "theorems": [
    "C07_cfg_sum"
   ],
   "note": ""
  },
  {
   "property": "C08",
   "status": "proved",
   "theorems": [
    "C08_dependency_multiroot_sum"
   ],
   "note": "head-vector specification of projectivity"
  },
  {
   "property": "C09",
   "status": "proved",
   "theorems": [
    "C09_dependency_singleroot_sum"
   ],
   "note": ""
  },
  {
   "property": "C10",
   "status": "proved",
   "theorems": [
    "C10_dependency_labeled_sum"
   ],
   "note": "both root modes"
  },
  {
   "property": "C11",
   "status": "proved",
   "theorems": [
    "C11_partition",
    "C11_partition_exact",
    "C11_projective_below"
   ],
   "note": "both root modes, scores may be -inf, any eps >= 0, real arithmetic"
  },
  {
   "property": "C12",
   "status": "proved",
   "theorems": [
    "C12_output",
    "C12_marginals",
    "C12_columns",
    "C12_gradient",
    "C12_smoothed_columns"
   ],
   "note": ""
  },
  {
   "property": "C13",
   "status": "proved",
   "theorems": [
    "C13_padding_exact",
    "C13_marginals_exact",
    "C13_padding_leak",
    "C13_padding_refuted",
    "C13_padding_marginals"
   ],
   "note": "invariance holds for eps = 0 only; with the default eps it is refuted"
  },
  {
   "property": "C14",
   "status": "proved",
   "theorems": [
    "C14_max_is_best"
   ],
   "note": "all five classes; chains and CFGs need potentials small against the finite zero -1e5"
  },
  {
   "property": "C15",
   "status": "proved",
   "theorems": [
    "C15_argmax_is_optimal",
    "C15_argmax_shared"
   ],
   "note": "any tie-breaking by torch.max"
  },
  {
   "property": "C16",
   "status": "proved",
   "theorems": [
    "C16_kmax",
    "C16_topk",
    "C16_topk_cfg"
   ],
   "note": "on shared graphs, any tie-breaking by torch.topk; with fewer than k structures the remaining slots hold values near -1e5; SentCFG.topk returns summed counts"
  },
  {
   "property": "C17",
   "status": "proved",
   "theorems": [
    "C17_entropy_value"
   ],
   "note": "exact for TreeCRF and DependencyCRF; explicit bound (about e^-100000) for the classes whose graph contains the finite zero"
  },
  {
   "property": "C18",
   "status": "proved",
   "theorems": [
    "C18_cross_entropy_value",
    "C18_pair_queries_elsewhere"
   ],
   "note": "LinearChainCRF and TreeCRF; the other classes raise"
  },
  {
   "property": "C19",
   "status": "proved",
   "theorems": [
    "C19_kl_value",
    "C19_kl_laws"
   ],
   "note": "LinearChainCRF and TreeCRF; the other classes raise"
  },
  {
   "property": "C20",
   "status": "proved",
   "theorems": [
    "C20_partition_value",
    "C20_marginals_value",
    "C20_marginals_gradient",
    "C20_marginals_shared"
   ],
   "note": "same accuracy statement as C17"
  },
  {
   "property": "C21",
   "status": "proved",
   "theorems": [
    "C21_log_prob_normalised"
   ],
   "note": "SentCFG.log_prob always raises"
  },
  {
   "property": "C22",
   "status": "proved",
   "theorems": [
    "C22_one_derivation",
    "C22_sample_is_structure"
   ],
   "note": "all classes with sample(); SentCFG.sample raises"
  },
  {
   "property": "C23",
   "status": "proved",
   "theorems": [
    "C23_sample_law"
   ],
   "note": "joint law of n samples and all rows, one draw per node of the shared graph; exact for graphs without the finite zero, explicit bound otherwise"
  },
  {
   "property": "C24",
   "status": "proved",
   "theorems": [
    "C24_unpacking"
   ],
   "note": "for every set of draws, with shared nodes"
  },
  {
   "property": "C25",
   "status": "proved",
   "theorems": [
    "C25_semiring_laws",
    "C25_unit",
    "C25_kmax_unit"
   ],
   "note": "the unit law of KMax(k) holds exactly for cells with spread at most 1e5"
  },
  {
   "property": "C26",
   "status": "proved",
   "theorems": [
    "C26_zero_not_neutral",
    "C26_linear_chain_max",
    "C26_wrong_maximum"
   ],
   "note": ""
  },
  {
   "property": "C27",
   "status": "proved",
   "theorems": [
    "C27_matmul",
    "C27_dot",
    "C27_any_bracketing",
    "C27_scan"
   ],
   "note": "tensors with broadcasting, every class"
  },
  {
   "property": "C28",
   "status": "proved",
   "theorems": [
    "C28_sharded_matmul"
   ],
   "note": "classes with one float per cell, positive sizes, equal ranks; C28_entropy_refuted shows the restriction is needed"
  },
  {
   "property": "C29",
   "status": "proved",
   "theorems": [
    "C29_chain_to_from",
    "C29_chain_from_to",
    "C29_single_label_refuted"
   ],
   "note": "a row of length 1 has no edge, its label is lost"
  },
  {
   "property": "C30",
   "status": "proved",
   "theorems": [
    "C30_segments_to_from",
    "C30_first_entry",
    "C30_lost_label_refuted"
   ],
   "note": "a row whose only label is the first loses it"
  },
  {
   "property": "C31",
   "status": "proved",
   "theorems": [
    "C31_heads_to_from",
    "C31_heads_from_to",
    "dunconvert_convert",
    "C31_self_loop_refuted"
   ],
   "note": ""
  },
  {
   "property": "C32",
   "status": "proved",
   "theorems": [
    "C32_chart_to_counts",
    "C32_anchored_to_counts",
    "C32_splits",
    "C32_lengths_required"
   ],
   "note": "to_parts, from_parts and _intermediary"
  },
  {
   "property": "C33",
   "status": "proved",
   "theorems": [
    "C33_hmm_score",
    "C33_hmm_likelihood",
    "C33_joint_is_distribution",
    "C33_length_one_refuted"
   ],
   "note": "rows of length at least 2; a length-1 row gets log C"
  },
  {
   "property": "C34",
   "status": "proved",
   "theorems": [
    "C34_hsmm_score",
    "C34_hsmm_likelihood",
    "C34_length_one"
   ],
   "note": ""
  },
  {
   "property": "C35",
   "status": "proved",
   "theorems": [
    "C35_projection"
   ],
   "note": ""
  },
  {
   "property": "C36",
   "status": "proved",
   "theorems": [
    "C36_grad_support",
    "C36_grad_is_derivative",
    "C36_grad_symmetric",
    "C36_backward_is_gradient",
    "C36_forward_refuted",
    "C36_single_score_refuted"
   ],
   "note": "backward is the gradient of <v,w>-|w|^2/2, not of the forward value"
  },
  {
   "property": "C37",
   "status": "proved",
   "theorems": [
    "C37_beam",
    "C37_greedy"
   ],
   "note": "any tie-breaking by topk; slots beyond n_classes^n_length hold a score lowered by 1e5"
  },
  {
   "property": "C38",
   "status": "proved",
   "theorems": [
    "C38_sorted",
    "C38_distinct",
    "C38_without_replacement",
    "C38_wide_exact"
   ],
   "note": "scores spread less than 1e5; covers sample_without_replacement as well"
  },
  {
   "property": "C39",
   "status": "proved",
   "theorems": [
    "C39_normalised"
   ],
   "note": ""
  },
  {
   "property": "C40",
   "status": "proved",
   "theorems": [
    "C40_count",
    "C40_cfg_raises",
    "C40_chain_count",
    "C40_tree_count",
    "C40_segment_count"
   ],
   "note": "SentCFG.count always raises"
  },
  {
   "property": "C41",
   "status": "proved",
   "theorems": [
    "C41_history",
    "C41_log_prob",
    "C41_direct",
    "C41_own_arguments",
    "C41_stable",
    "C41_interference",
    "C41_refuted"
   ],
   "note": "false in general (C41_refuted); holds exactly as far as C41_own_arguments says; C41_history determines every answer"
  },
  {
   "property": "C42",
   "status": "proved",
   "theorems": [
    "C42_structure",
    "C42_equal_rows",
    "C42_temperature",
    "C42_temperature_same",
    "C42_law_refuted"
   ],
   "note": "for classes with a finite zero, C42_structure needs noise small against 1e5; the straight-through gradient of the returned tensor is C63"
  },
  {
   "property": "C43",
   "status": "proved",
   "theorems": [
    "C43_every_query_raises",
    "C43_no_one_",
    "C43_attribute",
    "C43_local_lost",
    "C43_local_ignored",
    "C43_signs_ignored"
   ],
   "note": "the lines after the missing attribute are an arbitrary parameter"
  },
  {
   "property": "C44",
   "status": "proved",
   "theorems": [
    "C18_cross_entropy_value",
    "C19_kl_value",
    "C18_pair_queries_elsewhere"
   ],
   "note": ""
  },
  {
   "property": "C45",
   "status": "proved",
   "theorems": [
    "C45_chain_rejects",
    "C45_semi_markov_rejects",
    "C45_tree_length0_is_full"
   ],
   "note": ""
  },
  {
   "property": "C46",
   "status": "proved",
   "theorems": [
    "C46_sample_law",
    "C46_sample_log_prob",
    "C46_unnormalised_refuted"
   ],
   "note": "joint law of all samples and batch elements"
  },
  {
   "property": "C47",
   "status": "proved",
   "theorems": [
    "C47_score",
    "C47_tempmax_noise",
    "C47_alpha_zero",
    "C47_deterministic_refuted"
   ],
   "note": ""
  },
  {
   "property": "C48",
   "status": "proved",
   "theorems": [
    "C48_attributes",
    "C48_abstract",
    "C48_methods"
   ],
   "note": ""
  },
  {
   "property": "C49",
   "status": "proved",
   "theorems": [
    "C49_monotone",
    "C49_convex",
    "C49_log_prob_concave",
    "C49_tangent",
    "C49_sandwich"
   ],
   "note": ""
  },
  {
   "property": "C50",
   "status": "proved",
   "theorems": [
    "C50_covariance"
   ],
   "note": "explicit error bound from the finite zero, zero for TreeCRF and DependencyCRF"
  },
  {
   "property": "C51",
   "status": "proved",
   "theorems": [
    "C51_masked_partition",
    "C51_masked_max",
    "C51_chain_never_minus_infinity",
    "C51_log_prob_nan",
    "C51_log_prob_unmasked"
   ],
   "note": "gradients at minus-infinite potentials are not modelled"
  },
  {
   "property": "C52",
   "status": "proved",
   "theorems": [
    "C52_shift",
    "C52_shift_argmax",
    "C52_chain_step",
    "C52_chain_gauge",
    "C52_semi_position",
    "C52_tree_words",
    "C52_dep_word"
   ],
   "note": ""
  },
  {
   "property": "C53",
   "status": "proved",
   "theorems": [
    "C53_sharded_backward",
    "C53_log_gradient",
    "C53_std_gradient",
    "C53_no_unit_dimension_refuted"
   ],
   "note": "positive sizes, equal ranks; needs a dimension of size 1 in each operand besides the last"
  },
  {
   "property": "C54",
   "status": "proved",
   "theorems": [
    "C54_graph",
    "C54_schedule",
    "C54_two_labels_refuted"
   ],
   "note": "the networkx/dgl consumers of the result are not modelled"
  },
  {
   "property": "C55",
   "status": "proved",
   "theorems": [
    "C55_fast_matmul",
    "C55_no_genbmm",
    "C55_rank_refuted"
   ],
   "note": "genbmm itself is a contract; banded operands are not modelled"
  },
  {
   "property": "C56",
   "status": "proved",
   "theorems": [
    "C56_argmax_log_prob",
    "C56_entropy_identity",
    "C56_entropy_range",
    "C56_kmax_prefix",
    "C56_sample_log_prob"
   ],
   "note": "explicit error bounds from the finite zero, zero for TreeCRF and DependencyCRF"
  },
  {
   "property": "C57",
   "status": "proved",
   "theorems": [
    "C57_partition",
    "C57_max",
    "C57_argmax",
    "C57_count",
    "C57_count_errors",
    "C57_marginals",
    "C57_sampling",
    "C57_torch_partition",
    "C57_torch_marginals",
    "C57_torch_count",
    "C57_score",
    "C57_log_prob",
    "C57_torch_log_prob"
   ],
   "note": "any rounding with relative error u; overflow is excluded by the bounds, underflow of the exponential is included for marginals; gradients are accumulated exactly; sampling without underflow; log_prob for every order of summation of the score"
  },
  {
   "property": "C58",
   "status": "proved",
   "theorems": [
    "C58_enumeration",
    "C58_filters",
    "C58_semiring",
    "C58_log",
    "C58_max",
    "C58_count",
    "C58_kmax",
    "C58_entropy",
    "C58_labels_semiring",
    "C58_labels_log",
    "C58_labels_max",
    "C58_nonproj_exact",
    "C58_nonproj_smoothed",
    "C58_hsmm"
   ],
   "note": "the enumerations with lengths and the alignment enumeration are not modelled"
  },
  {
   "property": "C59",
   "status": "proved",
   "theorems": [
    "C59_chain_labels",
    "C59_chain_reversal",
    "C59_chain_is_semi",
    "C59_semi_labels",
    "C59_semi_reversal",
    "C59_semi_wide",
    "C59_tree_labels",
    "C59_tree_mirror",
    "C59_cfg_symbols",
    "C59_cfg_mirror",
    "C59_dep_mirror",
    "C59_dep_labels",
    "C59_dep_one_label"
   ],
   "note": "exact in every commutative semiring and for max and argmax; explicit error bounds from the finite zero for partition, entropy and marginals, zero for TreeCRF and DependencyCRF"
  },
  {
   "property": "C60",
   "status": "proved",
   "theorems": [
    "C60_proper",
    "C60_likelihood_exact",
    "C60_likelihood",
    "C60_subprobability",
    "C60_words_sum_out",
    "C60_probabilities"
   ],
   "note": "the residual networks enter through their outputs, which are arbitrary; sentences of at least two words; explicit error bound from the finite zero for the partition"
  },
  {
   "property": "C61",
   "status": "proved",
   "theorems": [
    "C61_partition_direction",
    "C61_likelihood_gradient",
    "C61_tagger_likelihood",
    "C61_tagger_emission",
    "C61_tagger_transition",
    "C61_tagger_errors",
    "C61_parser_errors",
    "C61_parser_likelihood",
    "C61_last_word",
    "C61_mask_value",
    "C61_mask_refuted",
    "C61_crossing_refuted"
   ],
   "note": "network outputs are arbitrary; tagger rows have at least two tags; explicit error bounds from the finite zero for the tagger, exact for the parser; that the masks of bert-dep.py only touch padding, and that log_prob of a gold tree is at most 0, are refuted"
  },
  {
   "property": "C62",
   "status": "proved",
   "theorems": [
    "C62_reinforce_gradient",
    "C62_total",
    "C62_policy_gradient",
    "C62_training_lengths"
   ],
   "note": "the reward is an arbitrary function of one row's event; exact for TreeCRF (which tree.py trains) and multi-root dependency trees, explicit error bound from the finite zero for the other classes; real arithmetic, no gradient clipping"
  },
  {
   "property": "C63",
   "status": "proved",
   "theorems": [
    "C63_formula",
    "C63_relaxed",
    "C63_gauge_graph",
    "C63_gauge",
    "C63_constant_refuted",
    "C63_redraw_refuted"
   ],
   "note": "loss linear in the returned tensor (its gradient om is arbitrary, so this is the general case of reverse mode); noise is given, its law is not used; shared nodes are unfolded; the two expectations that fail are refuted"
  },
  {
   "property": "C64",
   "status": "proved",
   "theorems": [
    "C64_convex",
    "C64_prune",
    "C64_argmax",
    "C64_value",
    "C64_value_refuted",
    "C64_best_refuted"
   ],
   "note": "real arithmetic; for classes with a finite zero the potentials must be small against 1e5 (sparse_small); shared nodes are unfolded; that a single structure keeps its score and that the best structure keeps weight are refuted"
  },
  {
   "property": "C65",
   "status": "proved",
   "theorems": [
    "C65_event_shape",
    "C65_broadcast",
    "C65_events",
    "C65_mismatch",
    "C65_no_samples",
    "C65_unbatched",
    "C65_unbatched_refuted"
   ],
   "note": "contiguous layout of the product; that an event without batch dimension is scored per row is refuted"
  },
  {
   "property": "C66",
   "status": "proved",
   "theorems": [
    "C66_logarithmic",
    "C66_linear",
    "C66_standard"
   ],
   "note": "every sum over a dimension and every product counts as one operation; matmul is a product followed by a sum"
  },
  {
   "property": "C67",
   "status": "proved",
   "theorems": [
    "C67_read",
    "C67_read_total",
    "C67_unclosed_refuted",
    "C67_tensor",
    "C67_roundtrip",
    "C67_unary_refuted",
    "C67_unary_word_refuted",
    "C67_columns",
    "C67_columns_refuted",
    "C67_gold_graph",
    "C67_expand",
    "C67_sample_graph"
   ],
   "note": "the vocabulary is an arbitrary function of the token"
  },
  {
   "property": "C68",
   "status": "proved",
   "theorems": [
    "C68_forward",
    "C68_reward",
    "C68_recursion_refuted"
   ],
   "note": "the graph library DGL is not in the repository; what is assumed of it is stated at the top of TreeLstm.v"
  },
  {
   "property": "C69",
   "status": "proved",
   "theorems": [
    "C69_reader",
    "C69_reader_no_blank",
    "C69_reader_refuted",
    "C69_pre",
    "C69_mapper",
    "C69_pool",
    "C69_drift",
    "C69_aligned",
    "C69_punctuation_refuted",
    "C69_unknown_refuted"
   ],
   "note": "the tokenizer is not in the repository: its pieces and encoding are arbitrary lists"
  },
  {
   "property": "C70",
   "status": "proved",
   "theorems": [
    "C70_vector",
    "C70_additive",
    "C70_defined",
    "C70_rows",
    "C70_whole_row",
    "C70_padding_refuted"
   ],
   "note": ""
  },
  {
   "property": "C71",
   "status": "proved",
   "theorems": [
    "C71_value",
    "C71_mismatch",
    "C71_one_reference",
    "C71_lengths_refuted"
   ],
   "note": "that different lengths are noticed is refuted"
  },
  {
   "property": "C72",
   "status": "proved",
   "theorems": [
    "C72_entropy",
    "C72_cross_entropy_self",
    "C72_other",
    "C72_kl_self",
    "C72_flat"
   ],
   "note": "derivative of the returned value; the backward pass of these semirings is not modelled"
  },
  {
   "property": "C73",
   "status": "proved",
   "theorems": [
    "C73_default",
    "C73_tensor_classes",
    "C73_never",
    "C73_nonprojective",
    "C73_no_effect",
    "C73_too_long_refuted"
   ],
   "note": "the checking loop of torch.distributions is given by a contract; that accepted lengths fit the potentials is refuted"
  },
  {
   "property": "C74",
   "status": "proved",
   "theorems": [
    "C74_value",
    "C74_split_refuted",
    "C74_k_final"
   ],
   "note": "the claim that split returns split points is refuted for every chart; what it returns is proved; k_final would be right"
  },
  {
   "property": "C75",
   "status": "proved",
   "theorems": [
    "C75_query",
    "C75_event",
    "C75_inner",
    "C75_standard",
    "C75_raises",
    "C75_untouched_refuted"
   ],
   "note": "objects, shared memory and requires_grad only; every branch and number of rounds is allowed, so the runs of the library are among those covered; that queries leave the flag of the caller's potentials alone is refuted"
  },
  {
   "property": "C76",
   "status": "proved",
   "theorems": [
    "C76_span_marginals",
    "C76_span_padding",
    "C76_span_total",
    "C76_span_gradient",
    "C76_same_values",
    "C76_argmax_spans",
    "C76_argmax_total",
    "C76_topk_spans"
   ],
   "note": "the gradient of the intermediate tensor span[w] is modelled as the gradient of an offset added to it; for topk the offset is the one of KMaxSemiring and its slot 0 is read"
  },
  {
   "property": "C77",
   "status": "proved",
   "theorems": [
    "C77_entropy_nan",
    "C77_kl_p_nan",
    "C77_cross_entropy_both_nan",
    "C77_chain_q_infinite",
    "C77_tree_q",
    "C77_tree_p_cross_entropy",
    "C77_finite"
   ],
   "note": "finite floats are real numbers; infinities and NaN follow IEEE arithmetic; for a chain with a mask on p only, the value of cross_entropy is not stated (TreeCRF only)"
  },
  {
   "property": "C78",
   "status": "proved",
   "theorems": [
    "C78_marginals",
    "C78_chain",
    "C78_tree",
    "C78_tree_span_nan",
    "C78_tree_padding_nan",
    "C78_argmax",
    "C78_probability_of_avoiding"
   ],
   "note": "finite floats are real numbers; the backward of torch.logsumexp is grad * (input - result).exp(); the NaN conditions are worked out for chains and TreeCRF, the other classes only through the graph (C78_marginals)"
  },
  {
   "property": "C79",
   "status": "proved",
   "theorems": [
    "C79_raises",
    "C79_sample_law",
    "C79_sample_is_allowed",
    "C79_chain_never_raises",
    "C79_tree_raises",
    "C79_tree_law"
   ],
   "note": "finite floats are real numbers; softmax is exp(argument - logsumexp), and torch.multinomial raises on NaN and returns no outcome of weight 0"
  },
  {
   "property": "C80",
   "status": "proved",
   "theorems": [
    "C80_kmax",
    "C80_topk",
    "C80_topk_cfg",
    "C80_one",
    "C80_never_minus_infinity",
    "C80_disagrees_with_max"
   ],
   "note": "finite floats are real numbers; torch.topk orders -inf below every number; 2 * degree * bound < 1e5 for the finite potentials"
  },
  {
   "property": "C81",
   "status": "proved",
   "theorems": [
    "C81_dep_raises",
    "C81_dep_nan",
    "C81_dep_marginals",
    "C81_dep_law",
    "C81_semi_never_raises",
    "C81_semi_marginals"
   ],
   "note": "finite floats are real numbers; the recorded graph holds the cells listed by dep_values and semi_values"
  },
  {
   "property": "C82",
   "status": "proved",
   "theorems": [
    "C82_cfg_nan",
    "C82_cfg_nan_iff",
    "C82_cfg_marginals"
   ],
   "note": "finite floats are real numbers; the recorded graph holds the spans listed by cfg_values; span marginals are not covered"
  },
  {
   "property": "C83",
   "status": "proved",
   "theorems": [
    "C83_exact",
    "C83_smoothed_fails",
    "C83_smoothed_partition",
    "C83_smoothed_marginals"
   ],
   "note": "unpadded rows (padding is C13); real arithmetic"
  },
  {
   "property": "C84",
   "status": "proved",
   "theorems": [
    "C84_word_order",
    "C84_column_shift",
    "C84_convex",
    "C84_monotone",
    "C84_smoothing",
    "C84_column_shift_refuted"
   ],
   "note": "unpadded rows (padding is C13); real arithmetic; invariance under column shifts holds for eps = 0 only"
  },
  {
   "property": "C85",
   "status": "proved",
   "theorems": [
    "C85_hmm_likelihood",
    "C85_hmm_posterior",
    "C85_hmm_viterbi",
    "C85_hsmm_likelihood",
    "C85_hsmm_posterior",
    "C85_joint_is_distribution",
    "C85_hmm_agrees",
    "C85_hsmm_agrees",
    "C85_impossible_refuted"
   ],
   "note": "real arithmetic extended by minus infinity; rows of length at least 2 (shorter ones: C33, C34); that impossible observations give minus infinity is refuted"
  },
  {
   "property": "C86",
   "status": "proved",
   "theorems": [
    "C86_log_prob",
    "C86_forbidden",
    "C86_normalised",
    "C86_beam",
    "C86_distinct",
    "C86_exact",
    "C86_greedy",
    "C86_sample_law",
    "C86_dead_end",
    "C86_repeats_refuted",
    "C86_dead_end_refuted"
   ],
   "note": "real arithmetic extended by minus infinity and NaN; sparse values, no Gumbel noise; allowed sequences of one length differ by less than a factor exp(1e5) where stated; that the beams are distinct, and that scores are numbers in spite of dead ends, are refuted"
  },
  {
   "property": "C87",
   "status": "proved",
   "theorems": [
    "C87_exact",
    "C87_mass",
    "C87_balance",
    "C87_unused",
    "C87_chain_step",
    "C87_chain_join",
    "C87_semi_cover",
    "C87_semi_join",
    "C87_tree",
    "C87_tree_cross",
    "C87_dep",
    "C87_dep_cross",
    "C87_cfg",
    "C87_cfg_flow"
   ],
   "note": "real arithmetic; for LinearChain, SemiMarkov and SentCFG up to the explicit weight of derivations through the finite zero (-1e5), for potentials bounded by B"
  },
  {
   "property": "C88",
   "status": "proved",
   "theorems": [
    "C88_mass",
    "C88_balance",
    "C88_forbidden",
    "C88_chain",
    "C88_semi",
    "C88_tree",
    "C88_dep",
    "C88_cfg"
   ],
   "note": "real arithmetic extended by minus infinity and NaN; entries that are NaN are excluded by hypothesis where C78, C81 and C82 do not exclude them; up to the weight of the finite zero for LinearChain, SemiMarkov and SentCFG"
  },
  {
   "property": "C89",
   "status": "proved",
   "theorems": [
    "C89_max",
    "C89_argmax",
    "C89_cold_partition",
    "C89_cold_marginals",
    "C89_entropy",
    "C89_mean_score",
    "C89_hot"
   ],
   "note": "real arithmetic; up to the weight of the finite zero for LinearChain, SemiMarkov and SentCFG, which grows with t times the largest potential"
  },
  {
   "property": "C90",
   "status": "proved",
   "theorems": [
    "C90_event",
    "C90_forbid",
    "C90_part",
    "C90_pin",
    "C90_chain",
    "C90_semi",
    "C90_tree",
    "C90_dep",
    "C90_cfg"
   ],
   "note": "real arithmetic extended by minus infinity; up to the weight of the finite zero for LinearChain, SemiMarkov and SentCFG, where some structure must satisfy the annotation"
  },
  {
   "property": "C91",
   "status": "proved",
   "theorems": [
    "C91_semi_chain",
    "C91_semi_width",
    "C91_one_root",
    "C91_labels_semiring",
    "C91_labels_partition",
    "C91_labels_marginals",
    "C91_labels_max",
    "C91_labels_entropy"
   ],
   "note": "real arithmetic; up to the weight of the finite zero for partition, entropy and marginals of LinearChain and SemiMarkov"
  },
  {
   "property": "C92",
   "status": "proved",
   "theorems": [
    "C92_markov"
   ],
   "note": "real arithmetic; up to the weight of the finite zero"
  }
 ]
}
