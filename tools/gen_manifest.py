#!/usr/bin/env python3
"""Writes MANIFEST.json from the table below."""
import json, os
CLAIMS = [
 ("C01", "proved", ["C01_linear_chain_sum"], "every commutative semiring; length 0 behaves as length 1"),
 ("C02", "proved", ["C02_padding_invariant"], ""),
 ("C03", "proved", ["C03_linear_chain_rows", "C03_semi_markov_rows", "C03_tree_rows", "C03_cfg_rows", "C03_dependency_rows"],
  "for arbitrary semiring operations, no laws needed"),
 ("C04", "proved", ["C04_semi_markov_sum"], ""),
 ("C05", "proved", ["C05_scan_is_standard", "C05_standard_sum", "C05_zero_length_refuted"], "agreement on a row of length zero is refuted"),
 ("C06", "proved", ["C06_tree_sum"], ""),
 ("C07", "proved", ["C07_cfg_sum"], ""),
 ("C08", "proved", ["C08_dependency_multiroot_sum"], "head-vector specification of projectivity"),
 ("C09", "proved", ["C09_dependency_singleroot_sum"], ""),
 ("C10", "proved", ["C10_dependency_labeled_sum"], "both root modes"),
 ("C11", "proved", ["C11_partition", "C11_partition_exact", "C11_projective_below"], "both root modes, scores may be -inf, any eps >= 0, real arithmetic"),
 ("C12", "proved", ["C12_output", "C12_marginals", "C12_columns", "C12_gradient", "C12_smoothed_columns"], ""),
 ("C13", "proved", ["C13_padding_exact", "C13_marginals_exact", "C13_padding_leak", "C13_padding_refuted", "C13_padding_marginals"], "invariance holds for eps = 0 only; with the default eps it is refuted"),
 ("C14", "proved", ["C14_max_is_best"], "all five classes; chains and CFGs need potentials small against the finite zero -1e5"),
 ("C15", "proved", ["C15_argmax_is_optimal", "C15_argmax_shared"], "any tie-breaking by torch.max"),
 ("C16", "proved", ["C16_kmax", "C16_topk", "C16_topk_cfg"], "on shared graphs, any tie-breaking by torch.topk; with fewer than k structures the remaining slots hold values near -1e5; SentCFG.topk returns summed counts"),
 ("C17", "proved", ["C17_entropy_value"], "exact for TreeCRF and DependencyCRF; explicit bound (about e^-100000) for the classes whose graph contains the finite zero"),
 ("C18", "proved", ["C18_cross_entropy_value", "C18_pair_queries_elsewhere"], "LinearChainCRF and TreeCRF; the other classes raise"),
 ("C19", "proved", ["C19_kl_value", "C19_kl_laws"], "LinearChainCRF and TreeCRF; the other classes raise"),
 ("C20", "proved", ["C20_partition_value", "C20_marginals_value", "C20_marginals_gradient", "C20_marginals_shared"], "same accuracy statement as C17"),
 ("C21", "proved", ["C21_log_prob_normalised"], "SentCFG.log_prob always raises"),
 ("C22", "proved", ["C22_one_derivation", "C22_sample_is_structure"], "all classes with sample(); SentCFG.sample raises"),
 ("C23", "proved", ["C23_sample_law"], "joint law of n samples and all rows, one draw per node of the shared graph; exact for graphs without the finite zero, explicit bound otherwise"),
 ("C24", "proved", ["C24_unpacking"], "for every set of draws, with shared nodes"),
 ("C25", "proved", ["C25_semiring_laws", "C25_unit", "C25_kmax_unit"], "the unit law of KMax(k) holds exactly for cells with spread at most 1e5"),
 ("C26", "proved", ["C26_zero_not_neutral", "C26_linear_chain_max", "C26_wrong_maximum"], ""),
 ("C27", "proved", ["C27_matmul", "C27_dot", "C27_any_bracketing", "C27_scan"], "tensors with broadcasting, every class"),
 ("C28", "proved", ["C28_sharded_matmul"], "classes with one float per cell, positive sizes, equal ranks; C28_entropy_refuted shows the restriction is needed"),
 ("C29", "proved", ["C29_chain_to_from", "C29_chain_from_to", "C29_single_label_refuted"], "a row of length 1 has no edge, its label is lost"),
 ("C30", "proved", ["C30_segments_to_from", "C30_first_entry", "C30_lost_label_refuted"], "a row whose only label is the first loses it"),
 ("C31", "proved", ["C31_heads_to_from", "C31_heads_from_to", "dunconvert_convert", "C31_self_loop_refuted"], ""),
 ("C32", "proved", ["C32_chart_to_counts", "C32_anchored_to_counts", "C32_splits", "C32_lengths_required"], "to_parts, from_parts and _intermediary"),
 ("C33", "proved", ["C33_hmm_score", "C33_hmm_likelihood", "C33_joint_is_distribution", "C33_length_one_refuted"], "rows of length at least 2; a length-1 row gets log C"),
 ("C34", "proved", ["C34_hsmm_score", "C34_hsmm_likelihood", "C34_length_one"], ""),
 ("C35", "proved", ["C35_projection"], ""),
 ("C36", "proved", ["C36_grad_support", "C36_grad_is_derivative", "C36_grad_symmetric", "C36_backward_is_gradient", "C36_forward_refuted", "C36_single_score_refuted"], "backward is the gradient of <v,w>-|w|^2/2, not of the forward value"),
 ("C37", "proved", ["C37_beam", "C37_greedy"], "any tie-breaking by topk; slots beyond n_classes^n_length hold a score lowered by 1e5"),
 ("C38", "proved", ["C38_sorted", "C38_distinct", "C38_without_replacement", "C38_wide_exact"], "scores spread less than 1e5; covers sample_without_replacement as well"),
 ("C39", "proved", ["C39_normalised"], ""),
 ("C40", "proved", ["C40_count", "C40_cfg_raises", "C40_chain_count", "C40_tree_count", "C40_segment_count"], "SentCFG.count always raises"),
 ("C41", "proved", ["C41_history", "C41_log_prob", "C41_direct", "C41_own_arguments", "C41_stable", "C41_interference", "C41_refuted"], "false in general (C41_refuted); holds exactly as far as C41_own_arguments says; C41_history determines every answer"),
 ("C42", "proved", ["C42_structure", "C42_equal_rows", "C42_temperature", "C42_temperature_same", "C42_law_refuted"], "for classes with a finite zero, C42_structure needs noise small against 1e5; the straight-through gradient of the returned tensor is C63"),
 ("C43", "proved", ["C43_every_query_raises", "C43_no_one_", "C43_attribute", "C43_local_lost", "C43_local_ignored", "C43_signs_ignored"], "the lines after the missing attribute are an arbitrary parameter"),
 ("C44", "proved", ["C18_cross_entropy_value", "C19_kl_value", "C18_pair_queries_elsewhere"], ""),
 ("C45", "proved", ["C45_chain_rejects", "C45_semi_markov_rejects", "C45_tree_length0_is_full"], ""),
 ("C46", "proved", ["C46_sample_law", "C46_sample_log_prob", "C46_unnormalised_refuted"], "joint law of all samples and batch elements"),
 ("C47", "proved", ["C47_score", "C47_tempmax_noise", "C47_alpha_zero", "C47_deterministic_refuted"], ""),
 ("C48", "proved", ["C48_attributes", "C48_abstract", "C48_methods"], ""),
 ("C49", "proved", ["C49_monotone", "C49_convex", "C49_log_prob_concave", "C49_tangent", "C49_sandwich"], ""),
 ("C50", "proved", ["C50_covariance"], "explicit error bound from the finite zero, zero for TreeCRF and DependencyCRF"),
 ("C51", "proved", ["C51_masked_partition", "C51_masked_max", "C51_chain_never_minus_infinity", "C51_log_prob_nan", "C51_log_prob_unmasked"], "gradients at minus-infinite potentials are not modelled"),
 ("C52", "proved", ["C52_shift", "C52_shift_argmax", "C52_chain_step", "C52_chain_gauge", "C52_semi_position", "C52_tree_words", "C52_dep_word"], ""),
 ("C53", "proved", ["C53_sharded_backward", "C53_log_gradient", "C53_std_gradient", "C53_no_unit_dimension_refuted"], "positive sizes, equal ranks; needs a dimension of size 1 in each operand besides the last"),
 ("C54", "proved", ["C54_graph", "C54_schedule", "C54_two_labels_refuted"], "the networkx/dgl consumers of the result are not modelled"),
 ("C55", "proved", ["C55_fast_matmul", "C55_no_genbmm", "C55_rank_refuted"], "genbmm itself is a contract; banded operands are not modelled"),
 ("C56", "proved", ["C56_argmax_log_prob", "C56_entropy_identity", "C56_entropy_range", "C56_kmax_prefix", "C56_sample_log_prob"], "explicit error bounds from the finite zero, zero for TreeCRF and DependencyCRF"),
 ("C57", "proved", ["C57_partition", "C57_max", "C57_argmax", "C57_count", "C57_count_errors", "C57_marginals", "C57_sampling", "C57_torch_partition", "C57_torch_marginals", "C57_torch_count", "C57_score", "C57_log_prob", "C57_torch_log_prob"], "any rounding with relative error u; overflow is excluded by the bounds, underflow of the exponential is included for marginals; gradients are accumulated exactly; sampling without underflow; log_prob for every order of summation of the score"),
 ("C58", "proved", ["C58_enumeration", "C58_filters", "C58_semiring", "C58_log", "C58_max", "C58_count", "C58_kmax", "C58_entropy", "C58_labels_semiring", "C58_labels_log", "C58_labels_max", "C58_nonproj_exact", "C58_nonproj_smoothed", "C58_hsmm"], "the enumerations with lengths and the alignment enumeration are not modelled"),
 ("C59", "proved", ["C59_chain_labels", "C59_chain_reversal", "C59_chain_is_semi", "C59_semi_labels", "C59_semi_reversal", "C59_semi_wide", "C59_tree_labels", "C59_tree_mirror", "C59_cfg_symbols", "C59_cfg_mirror", "C59_dep_mirror", "C59_dep_labels", "C59_dep_one_label"], "exact in every commutative semiring and for max and argmax; explicit error bounds from the finite zero for partition, entropy and marginals, zero for TreeCRF and DependencyCRF"),
 ("C60", "proved", ["C60_proper", "C60_likelihood_exact", "C60_likelihood", "C60_subprobability", "C60_words_sum_out", "C60_probabilities"], "the residual networks enter through their outputs, which are arbitrary; sentences of at least two words; explicit error bound from the finite zero for the partition"),
 ("C61", "proved", ["C61_partition_direction", "C61_likelihood_gradient", "C61_tagger_likelihood", "C61_tagger_emission", "C61_tagger_transition", "C61_tagger_errors", "C61_parser_errors", "C61_parser_likelihood", "C61_last_word", "C61_mask_value", "C61_mask_refuted", "C61_crossing_refuted"], "network outputs are arbitrary; tagger rows have at least two tags; explicit error bounds from the finite zero for the tagger, exact for the parser; that the masks of bert-dep.py only touch padding, and that log_prob of a gold tree is at most 0, are refuted"),
 ("C62", "proved", ["C62_reinforce_gradient", "C62_total", "C62_policy_gradient", "C62_training_lengths"], "the reward is an arbitrary function of one row's event; exact for TreeCRF (which tree.py trains) and multi-root dependency trees, explicit error bound from the finite zero for the other classes; real arithmetic, no gradient clipping"),
 ("C63", "proved", ["C63_formula", "C63_relaxed", "C63_gauge_graph", "C63_gauge", "C63_constant_refuted", "C63_redraw_refuted"], "loss linear in the returned tensor (its gradient om is arbitrary, so this is the general case of reverse mode); noise is given, its law is not used; shared nodes are unfolded; the two expectations that fail are refuted"),
 ("C64", "proved", ["C64_convex", "C64_prune", "C64_argmax", "C64_value", "C64_value_refuted", "C64_best_refuted"], "real arithmetic; for classes with a finite zero the potentials must be small against 1e5 (sparse_small); shared nodes are unfolded; that a single structure keeps its score and that the best structure keeps weight are refuted"),
 ("C65", "proved", ["C65_event_shape", "C65_broadcast", "C65_events", "C65_mismatch", "C65_no_samples", "C65_unbatched", "C65_unbatched_refuted"], "contiguous layout of the product; that an event without batch dimension is scored per row is refuted"),
 ("C66", "proved", ["C66_logarithmic", "C66_linear", "C66_standard"], "every sum over a dimension and every product counts as one operation; matmul is a product followed by a sum"),
 ("C67", "proved", ["C67_read", "C67_read_total", "C67_unclosed_refuted", "C67_tensor", "C67_roundtrip", "C67_unary_refuted", "C67_unary_word_refuted", "C67_columns", "C67_columns_refuted", "C67_gold_graph", "C67_expand", "C67_sample_graph"], "the vocabulary is an arbitrary function of the token"),
 ("C68", "proved", ["C68_forward", "C68_reward", "C68_recursion_refuted"], "the graph library DGL is not in the repository; what is assumed of it is stated at the top of TreeLstm.v"),
 ("C69", "proved", ["C69_reader", "C69_reader_no_blank", "C69_reader_refuted", "C69_pre", "C69_mapper", "C69_pool", "C69_drift", "C69_aligned", "C69_punctuation_refuted", "C69_unknown_refuted"], "the tokenizer is not in the repository: its pieces and encoding are arbitrary lists"),
 ("C70", "proved", ["C70_vector", "C70_additive", "C70_defined", "C70_rows", "C70_whole_row", "C70_padding_refuted"], ""),
 ("C71", "proved", ["C71_value", "C71_mismatch", "C71_one_reference", "C71_lengths_refuted"], "that different lengths are noticed is refuted"),
 ("C72", "proved", ["C72_entropy", "C72_cross_entropy_self", "C72_other", "C72_kl_self", "C72_flat"], "derivative of the returned value; the backward pass of these semirings is not modelled"),
 ("C73", "proved", ["C73_default", "C73_tensor_classes", "C73_never", "C73_nonprojective", "C73_no_effect", "C73_too_long_refuted"], "the checking loop of torch.distributions is given by a contract; that accepted lengths fit the potentials is refuted"),
 ("C74", "proved", ["C74_value", "C74_split_refuted", "C74_k_final"], "the claim that split returns split points is refuted for every chart; what it returns is proved; k_final would be right"),
 ("C75", "proved", ["C75_query", "C75_event", "C75_inner", "C75_standard", "C75_raises", "C75_untouched_refuted"], "objects, shared memory and requires_grad only; every branch and number of rounds is allowed, so the runs of the library are among those covered; that queries leave the flag of the caller's potentials alone is refuted"),
 ("C76", "proved", ["C76_span_marginals", "C76_span_padding", "C76_span_total", "C76_span_gradient", "C76_same_values", "C76_argmax_spans", "C76_argmax_total", "C76_topk_spans"], "the gradient of the intermediate tensor span[w] is modelled as the gradient of an offset added to it; for topk the offset is the one of KMaxSemiring and its slot 0 is read"),
 ("C77", "proved", ["C77_entropy_nan", "C77_kl_p_nan", "C77_cross_entropy_both_nan", "C77_chain_q_infinite", "C77_tree_q", "C77_tree_p_cross_entropy", "C77_finite"], "finite floats are real numbers; infinities and NaN follow IEEE arithmetic; for a chain with a mask on p only, the value of cross_entropy is not stated (TreeCRF only)"),
 ("C78", "proved", ["C78_marginals", "C78_chain", "C78_tree", "C78_tree_span_nan", "C78_tree_padding_nan", "C78_argmax", "C78_probability_of_avoiding"], "finite floats are real numbers; the backward of torch.logsumexp is grad * (input - result).exp(); the NaN conditions are worked out for chains and TreeCRF, the other classes only through the graph (C78_marginals)"),
 ("C79", "proved", ["C79_raises", "C79_sample_law", "C79_sample_is_allowed", "C79_chain_never_raises", "C79_tree_raises", "C79_tree_law"], "finite floats are real numbers; softmax is exp(argument - logsumexp), and torch.multinomial raises on NaN and returns no outcome of weight 0"),
 ("C80", "proved", ["C80_kmax", "C80_topk", "C80_topk_cfg", "C80_one", "C80_never_minus_infinity", "C80_disagrees_with_max"], "finite floats are real numbers; torch.topk orders -inf below every number; 2 * degree * bound < 1e5 for the finite potentials"),
 ("C81", "proved", ["C81_dep_raises", "C81_dep_nan", "C81_dep_marginals", "C81_dep_law", "C81_semi_never_raises", "C81_semi_marginals"], "finite floats are real numbers; the recorded graph holds the cells listed by dep_values and semi_values"),
 ("C82", "proved", ["C82_cfg_nan", "C82_cfg_nan_iff", "C82_cfg_marginals"], "finite floats are real numbers; the recorded graph holds the spans listed by cfg_values; span marginals are not covered"),
 ("C83", "proved", ["C83_exact", "C83_smoothed_fails", "C83_smoothed_partition", "C83_smoothed_marginals"], "unpadded rows (padding is C13); real arithmetic"),
 ("C84", "proved", ["C84_word_order", "C84_column_shift", "C84_convex", "C84_monotone", "C84_smoothing", "C84_column_shift_refuted"], "unpadded rows (padding is C13); real arithmetic; invariance under column shifts holds for eps = 0 only"),
 ("C85", "proved", ["C85_hmm_likelihood", "C85_hmm_posterior", "C85_hmm_viterbi", "C85_hsmm_likelihood", "C85_hsmm_posterior", "C85_joint_is_distribution", "C85_hmm_agrees", "C85_hsmm_agrees", "C85_impossible_refuted"], "real arithmetic extended by minus infinity; rows of length at least 2 (shorter ones: C33, C34); that impossible observations give minus infinity is refuted"),
 ("C86", "proved", ["C86_log_prob", "C86_forbidden", "C86_normalised", "C86_beam", "C86_distinct", "C86_exact", "C86_greedy", "C86_sample_law", "C86_dead_end", "C86_repeats_refuted", "C86_dead_end_refuted"], "real arithmetic extended by minus infinity and NaN; sparse values, no Gumbel noise; allowed sequences of one length differ by less than a factor exp(1e5) where stated; that the beams are distinct, and that scores are numbers in spite of dead ends, are refuted"),
 ("C87", "proved", ["C87_exact", "C87_mass", "C87_balance", "C87_unused", "C87_chain_step", "C87_chain_join", "C87_semi_cover", "C87_semi_join", "C87_tree", "C87_tree_cross", "C87_dep", "C87_dep_cross", "C87_cfg", "C87_cfg_flow"], "real arithmetic; for LinearChain, SemiMarkov and SentCFG up to the explicit weight of derivations through the finite zero (-1e5), for potentials bounded by B"),
 ("C88", "proved", ["C88_mass", "C88_balance", "C88_forbidden", "C88_chain", "C88_semi", "C88_tree", "C88_dep", "C88_cfg"], "real arithmetic extended by minus infinity and NaN; entries that are NaN are excluded by hypothesis where C78, C81 and C82 do not exclude them; up to the weight of the finite zero for LinearChain, SemiMarkov and SentCFG"),
 ("C89", "proved", ["C89_max", "C89_argmax", "C89_cold_partition", "C89_cold_marginals", "C89_entropy", "C89_mean_score", "C89_hot"], "real arithmetic; up to the weight of the finite zero for LinearChain, SemiMarkov and SentCFG, which grows with t times the largest potential"),
 ("C90", "proved", ["C90_event", "C90_forbid", "C90_part", "C90_pin", "C90_chain", "C90_semi", "C90_tree", "C90_dep", "C90_cfg"], "real arithmetic extended by minus infinity; up to the weight of the finite zero for LinearChain, SemiMarkov and SentCFG, where some structure must satisfy the annotation"),
 ("C91", "proved", ["C91_semi_chain", "C91_semi_width", "C91_one_root", "C91_labels_semiring", "C91_labels_partition", "C91_labels_marginals", "C91_labels_max", "C91_labels_entropy"], "real arithmetic; up to the weight of the finite zero for partition, entropy and marginals of LinearChain and SemiMarkov"),
 ("C92", "proved", ["C92_markov"], "real arithmetic; up to the weight of the finite zero"),
]
here = os.path.dirname(os.path.dirname(os.path.abspath(__file__)))
with open(os.path.join(here, "MANIFEST.json"), "w") as f:
    json.dump({"claims": [dict(property=p, status=s, theorems=t, note=n) for p, s, t, n in CLAIMS]}, f, indent=1)
    f.write("\n")
