# A Rocq model of pytorch-struct

The properties are in `properties.jsonl`, the theorems that settle them in `MANIFEST.json`; this file says what is
modelled, what is trusted and how each property is proved.

## 1. What is modelled, and how

The library computes everything by running one dynamic program (DP) per structure family with different *semirings*,
and reads marginals / argmax / samples off the gradients. The model keeps exactly that architecture.

* **Semirings as records of operations** (`Ops.v`). `ops` = carrier, n-ary `ssum` over a list (`semiring.sum` along a
  dimension), `smul`, the constants `szero`, `sone`, and `sover` for cells read past a mask. No laws. The leading *ssize*
  dimension of the tensors (k numbers for k-max, 2 for entropy, ...) is the carrier type.
* **Tensors** are a shape (`list nat`) and a total function from index lists; a DP only reads in range.
  `Tensor.v` has broadcasting, views and `matmul` on whole tensors.
* **Python exceptions** are values: `Ok v | Err e` with the exception class in `pyerr`.
* **Each DP** (`LinearChain.v`, `SemiMarkov.v`, `CkyCrf.v`, `Cky.v`, `DepTree.v`) is written once, polymorphic in `ops`,
  statement by statement after the Python: chart slots, slices, the two mirrored charts `A`/`B`, power of two padding,
  length masks.
* **Graphs** (`Terms.v`). Running a DP on the `ops` whose operations build nodes (`tops`) yields the computation graph,
  a `term` with nodes `TLeaf TOver TOne TZero TSum TMul`. A parametricity lemma per DP (`resp_*`) says that running it
  on any other `ops` is evaluating that graph. Gradients (`torch.autograd`) are backward passes over the graph
  (`Grad.v`): each `sum` node distributes its incoming gradient with its local rule — softmax, one-hot of `torch.max`,
  one-hot of a draw, 16 packed draws. So the theorems on marginals, argmax, top-k and sampling are proved once for all
  graphs and transferred to each family. `Dag.v` / `DagLaw.v` redo this on graphs with *shared* nodes, where a node is
  visited once and draws once.
* **The finite zero.** `_BaseLog.zero` is -1e5, not minus infinity. The constant is kept: `TZero` nodes. The main
  theorem for each DP is proved for lawful semirings with a true zero; instantiated with the free commutative semiring
  (`Poly.v`) it says that the *pure* derivations of the graph (those without `TZero`) are exactly the structures, each
  once. The others are spurious and carry a factor -1e5; `Approx.v` and `Degree.v` bound them explicitly, `Purity.v`
  shows that TreeCRF and DependencyCRF have none.
* **Queries** (`Api.v`, `Query.v`, `Dist.v`). A `call` fixes class, shapes and lengths; `valid` says which calls the
  code accepts; `q_*` are the methods of `StructDistribution` on a whole batch.
* **Programs, not only calls** (`History.v`): distribution objects with lazily cached properties and the class attribute
  `DepTree.multiroot`, as a state machine over arbitrary histories.
* **Rounded arithmetic** (`Round.v`, `Size.v`, `Machine.v`). The same DPs run on `ops` whose operations have a rounding
  error; `Round.v` bounds the error on any graph, `Size.v` bounds the size of the graph of every call, `Machine.v` shows that
  torch's logsumexp and its backward pass meet the assumed error of one operation. `P_Float.v` instantiates with binary32 (Flocq).
* **Memory and flags** (`Effects.v`). The same functions once more, as programs over tensors that may share memory, without
  their numbers: which tensors are new, which are views, which are written in place, which get `requires_grad`.
* **The rest of the package**: `KMax.v` (k-max semiring and its backward pass), `Laws.v`, `LcMax.v` (exact value of the
  max semiring with its finite zero), `Codec.v`, `CkyCodec.v` (`to_parts`, `from_parts`), `Adapters.v` (`hmm`, `hsmm`),
  `Sparse.v` (sparsemax), `MatTree.v RField.v MxR.v NonProj.v` (matrix-tree theorem and `deptree_part`,
  `deptree_nonproj`), `AutoReg.v` (with forbidden classes: `P_MaskAr.v`), `Gumbel.v`, `Align.v` (semiring classes as Python objects with an MRO, argument
  binding, AlignmentCRF).

Specifications are separate from the code model: an inductive or list type for the structures (`list nat` of labels,
list of segments, labelled binary trees, head vectors), a weight function, and
`Enumerates P l := NoDup l /\ forall x, In x l <-> P x`. The theorems read "for every list `l` that enumerates the
structures, the DP returns the sum over `l` of the weights". Files: `Base.v`, `DepSpec.v`, `NpSpec.v`, and the
specification halves of the family files.

The files `P_*.v` hold the property theorems, each followed by an `..._example` that meets its hypotheses on a
non-trivial case.

### Coverage of /repo

| file | modelled | not modelled |
|------|----------|--------------|
| `helpers.py` | all; `requires_grad` and which tensors share memory in `Effects.v` (C75) | `device`, `Chart` allocation in the value models (a chart is a function with `zero` cells) |
| `linearchain.py` | all | `_rand` |
| `semimarkov.py` | all, incl. `_dp_standard` | |
| `cky_crf.py` | all | |
| `cky.py` | `logpartition`, `marginals`, `score`, `to_parts`, `from_parts`, `_intermediary`, `to_networkx` (C54); the span charts in `Spans.v` (C76) | |
| `deptree.py` | all | |
| `alignment.py` | `__init__`, `_check_potentials`, `_dp_scan` up to the missing attribute `one_` where every run stops | the lines after it |
| `distributions.py` | all classes, incl. their `arg_constraints` (C73); with infinite potentials in `Mask.v`, `Special.v` (C51, C77) `MaskGrad.v` (C78), `P_MaskSample.v` (C79), `MaskKMax.v` (C80), `MaskDep.v` (C81), `P_MaskCfg.v` (C82), `P_MaskNp.v` (C83) and `P_MaskHmm.v` (C85) | `torch.distributions.Distribution`, which is given by a contract (top of `Validate.v`) |
| `autoregressive.py` | all; with logits of minus infinity in `P_MaskAr.v` (C86) | the wrapped network is an arbitrary function |
| `semirings/semirings.py`, `sample.py`, `sparse_max.py` | all classes, incl. the straight-through gradient of `gumbel_crf` (C63) and whole models under SparseMax (C64) | |
| `semirings/checkpoint.py` | `matmul` of both wrappers, forward (C28) and sharded backward (C53) | the banded-matrix branches (need `genbmm`); autograd inside one shard is given by local derivative rules |
| `semirings/fast_semirings.py` | the sums, `broadcast` and `matmul` (C55) | the `genbmm` extension, which is given by a contract; banded operands |
| `tests/extensions.py` | the five enumerations, `enumerate_hsmm` and the three filters of dependency trees (C58) | `AlignmentTest`, the random generators, the lengths of the chain enumeration |
| `examples/`, `notebooks/` | `networks/NeuralCFG.py` (C60), `split` of `Unsupervised_CFG.ipynb` (C74), `bert-dep.py` and `BertTagger.ipynb` around the network (C61), `rl.py` and the objective of `tree.py` (C62), `data/trees.py:ListOpsDataset`, `expand_spans` and `valid_show` of `tree.py` (C67), `networks/TreeLSTM.py` and the reward of `tree.py` (C68), `data/trees.py:ConllXDataset`, `data/data.py` and the pooling of `bert-dep.py` (C69), `networks/SpanLSTM.py` (C70) | the residual networks inside it (arbitrary functions); DGL, which is given by a contract (top of `TreeLstm.v`); the other neural network code |

## 2. Trusted base

* Coq 8.16.1 kernel (and `coqchk`).
* Axioms: only the standard library's (list per theorem below). The real numbers bring
  `ClassicalDedekindReals.sig_forall_dec`, `sig_not_dec`, `functional_extensionality_dep` and, through `Rpower`/`ln`/limits,
  `Classical_Prop.classic`; the mathcomp field structure on R (`RField.v`, used for determinants only) takes its choice operator
  from `Epsilon.epsilon_statement`. `coqchk` in addition lists constants that mathcomp seals behind module types (they have
  bodies in mathcomp). No axiom is declared here.
* The reading of the Python code (every definition cites file and lines).
* Modelling assumptions: floats are real numbers (except in C57, where every operation of the DP rounds); torch primitives (`logsumexp`, `max`, `topk`, `sort`, indexing, broadcasting,
  `det`/`inverse`) do what their documentation says, with arbitrary tie-breaking where the documentation leaves it open;
  `torch.autograd` multiplies local Jacobians along all paths. C75 in addition trusts the list at the top of `Effects.v`
  of which torch operations allocate, which return views and which write in place.

### 2.1 Print Assumptions, per theorem

<!-- assumptions -->
* Closed under the global context (no axioms) — 87 theorems:
  `C01_linear_chain_sum`, `C02_padding_invariant`, `C03_linear_chain_rows`, `C03_semi_markov_rows`, `C03_tree_rows`, `C03_cfg_rows`, `C03_dependency_rows`, `C04_semi_markov_sum`, `C05_scan_is_standard`, `C05_standard_sum`, `C05_zero_length_refuted`, `C06_tree_sum`, `C07_cfg_sum`, `C08_dependency_multiroot_sum`, `C09_dependency_singleroot_sum`, `C10_dependency_labeled_sum`, `C22_one_derivation`, `C24_unpacking`, `C29_chain_to_from`, `C29_chain_from_to`, `C29_single_label_refuted`, `C30_segments_to_from`, `C30_first_entry`, `C30_lost_label_refuted`, `C31_heads_to_from`, `C31_heads_from_to`, `dunconvert_convert`, `C31_self_loop_refuted`, `C32_chart_to_counts`, `C32_anchored_to_counts`, `C32_splits`, `C32_lengths_required`, `C40_cfg_raises`, `C43_every_query_raises`, `C43_no_one_`, `C43_attribute`, `C43_local_lost`, `C43_local_ignored`, `C43_signs_ignored`, `C45_chain_rejects`, `C45_semi_markov_rejects`, `C45_tree_length0_is_full`, `C48_attributes`, `C48_abstract`, `C48_methods`, `C54_graph`, `C54_schedule`, `C54_two_labels_refuted`, `C55_fast_matmul`, `C55_no_genbmm`, `C58_enumeration`, `C58_filters`, `C58_semiring`, `C58_labels_semiring`, `C65_event_shape`, `C66_logarithmic`, `C66_linear`, `C66_standard`, `C67_read`, `C67_read_total`, `C67_unclosed_refuted`, `C67_tensor`, `C67_roundtrip`, `C67_unary_refuted`, `C67_unary_word_refuted`, `C67_columns`, `C67_columns_refuted`, `C67_gold_graph`, `C67_expand`, `C67_sample_graph`, `C69_reader`, `C69_reader_no_blank`, `C69_reader_refuted`, `C69_pre`, `C69_mapper`, `C69_drift`, `C69_unknown_refuted`, `C74_value`, `C74_split_refuted`, `C74_k_final`, `C75_query`, `C75_event`, `C75_inner`, `C75_standard`, `C75_raises`, `C75_untouched_refuted`, `C91_labels_semiring`
* `ClassicalDedekindReals.sig_forall_dec` — 2 theorems:
  `C85_hmm_agrees`, `C85_hsmm_agrees`
* `ClassicalDedekindReals.sig_forall_dec`, `FunctionalExtensionality.functional_extensionality_dep` — 63 theorems:
  `C14_max_is_best`, `C15_argmax_is_optimal`, `C15_argmax_shared`, `C16_kmax`, `C16_topk`, `C16_topk_cfg`, `C26_linear_chain_max`, `C26_wrong_maximum`, `C33_hmm_score`, `C34_hsmm_score`, `C34_length_one`, `C35_projection`, `C36_grad_support`, `C36_grad_is_derivative`, `C36_grad_symmetric`, `C36_backward_is_gradient`, `C40_count`, `C40_chain_count`, `C40_tree_count`, `C40_segment_count`, `C51_masked_max`, `C52_shift_argmax`, `C52_chain_step`, `C52_chain_gauge`, `C52_semi_position`, `C52_tree_words`, `C52_dep_word`, `C53_sharded_backward`, `C53_std_gradient`, `C57_max`, `C57_argmax`, `C57_count`, `C57_count_errors`, `C57_score`, `C58_max`, `C58_kmax`, `C58_labels_max`, `C61_tagger_errors`, `C61_parser_errors`, `C61_mask_value`, `C69_pool`, `C69_aligned`, `C69_punctuation_refuted`, `C73_default`, `C73_tensor_classes`, `C73_never`, `C73_nonprojective`, `C73_no_effect`, `C73_too_long_refuted`, `C76_argmax_spans`, `C76_argmax_total`, `C76_topk_spans`, `C78_argmax`, `C80_kmax`, `C80_topk`, `C80_topk_cfg`, `C80_one`, `C80_never_minus_infinity`, `C80_disagrees_with_max`, `C85_joint_is_distribution`, `C89_max`, `C89_argmax`, `C91_labels_max`
* `ClassicalDedekindReals.sig_forall_dec`, `ClassicalDedekindReals.sig_not_dec`, `FunctionalExtensionality.functional_extensionality_dep` — 19 theorems:
  `C11_projective_below`, `C33_joint_is_distribution`, `C36_forward_refuted`, `C36_single_score_refuted`, `C64_convex`, `C64_prune`, `C64_argmax`, `C64_value`, `C64_value_refuted`, `C64_best_refuted`, `C70_vector`, `C70_additive`, `C70_defined`, `C70_rows`, `C70_whole_row`, `C86_forbidden`, `C86_normalised`, `C86_sample_law`, `C87_exact`
* `ClassicalDedekindReals.sig_forall_dec`, `Classical_Prop.classic`, `FunctionalExtensionality.functional_extensionality_dep` — 1 theorems:
  `C56_kmax_prefix`
* `ClassicalDedekindReals.sig_forall_dec`, `ClassicalDedekindReals.sig_not_dec`, `Classical_Prop.classic`, `FunctionalExtensionality.functional_extensionality_dep` — 227 theorems:
  `C17_entropy_value`, `C18_cross_entropy_value`, `C18_pair_queries_elsewhere`, `C19_kl_value`, `C19_kl_laws`, `C20_partition_value`, `C20_marginals_value`, `C20_marginals_gradient`, `C20_marginals_shared`, `C21_log_prob_normalised`, `C22_sample_is_structure`, `C23_sample_law`, `C25_semiring_laws`, `C25_unit`, `C25_kmax_unit`, `C26_zero_not_neutral`, `C27_matmul`, `C27_dot`, `C27_any_bracketing`, `C27_scan`, `C28_sharded_matmul`, `C33_hmm_likelihood`, `C33_length_one_refuted`, `C34_hsmm_likelihood`, `C37_beam`, `C37_greedy`, `C38_sorted`, `C38_distinct`, `C38_without_replacement`, `C38_wide_exact`, `C39_normalised`, `C41_history`, `C41_log_prob`, `C41_direct`, `C41_own_arguments`, `C41_stable`, `C41_interference`, `C41_refuted`, `C42_structure`, `C42_equal_rows`, `C42_temperature`, `C42_temperature_same`, `C42_law_refuted`, `C46_sample_law`, `C46_sample_log_prob`, `C46_unnormalised_refuted`, `C47_score`, `C47_tempmax_noise`, `C47_alpha_zero`, `C47_deterministic_refuted`, `C49_monotone`, `C49_convex`, `C49_log_prob_concave`, `C49_tangent`, `C49_sandwich`, `C50_covariance`, `C51_masked_partition`, `C51_chain_never_minus_infinity`, `C51_log_prob_nan`, `C51_log_prob_unmasked`, `C52_shift`, `C53_log_gradient`, `C53_no_unit_dimension_refuted`, `C55_rank_refuted`, `C56_argmax_log_prob`, `C56_entropy_identity`, `C56_entropy_range`, `C56_sample_log_prob`, `C57_partition`, `C57_marginals`, `C57_sampling`, `C57_torch_partition`, `C57_torch_marginals`, `C57_torch_count`, `C57_log_prob`, `C57_torch_log_prob`, `C58_log`, `C58_count`, `C58_entropy`, `C58_labels_log`, `C58_hsmm`, `C59_chain_labels`, `C59_chain_reversal`, `C59_chain_is_semi`, `C59_semi_labels`, `C59_semi_reversal`, `C59_semi_wide`, `C59_tree_labels`, `C59_tree_mirror`, `C59_cfg_symbols`, `C59_cfg_mirror`, `C59_dep_mirror`, `C59_dep_labels`, `C59_dep_one_label`, `C60_proper`, `C60_likelihood_exact`, `C60_likelihood`, `C60_subprobability`, `C60_words_sum_out`, `C60_probabilities`, `C61_partition_direction`, `C61_likelihood_gradient`, `C61_tagger_likelihood`, `C61_tagger_emission`, `C61_tagger_transition`, `C61_parser_likelihood`, `C61_last_word`, `C61_mask_refuted`, `C61_crossing_refuted`, `C62_reinforce_gradient`, `C62_total`, `C62_policy_gradient`, `C62_training_lengths`, `C63_formula`, `C63_relaxed`, `C63_gauge_graph`, `C63_gauge`, `C63_constant_refuted`, `C63_redraw_refuted`, `C65_broadcast`, `C65_events`, `C65_mismatch`, `C65_no_samples`, `C65_unbatched`, `C65_unbatched_refuted`, `C68_forward`, `C68_reward`, `C68_recursion_refuted`, `C70_padding_refuted`, `C71_value`, `C71_mismatch`, `C71_one_reference`, `C71_lengths_refuted`, `C72_entropy`, `C72_cross_entropy_self`, `C72_other`, `C72_kl_self`, `C72_flat`, `C76_span_marginals`, `C76_span_padding`, `C76_span_total`, `C76_span_gradient`, `C76_same_values`, `C77_entropy_nan`, `C77_kl_p_nan`, `C77_cross_entropy_both_nan`, `C77_chain_q_infinite`, `C77_tree_q`, `C77_tree_p_cross_entropy`, `C77_finite`, `C78_marginals`, `C78_chain`, `C78_tree`, `C78_tree_span_nan`, `C78_tree_padding_nan`, `C78_probability_of_avoiding`, `C79_raises`, `C79_sample_law`, `C79_sample_is_allowed`, `C79_chain_never_raises`, `C79_tree_raises`, `C79_tree_law`, `C81_dep_raises`, `C81_dep_nan`, `C81_dep_marginals`, `C81_dep_law`, `C81_semi_never_raises`, `C81_semi_marginals`, `C82_cfg_nan`, `C82_cfg_nan_iff`, `C82_cfg_marginals`, `C85_hmm_likelihood`, `C85_hmm_posterior`, `C85_hmm_viterbi`, `C85_hsmm_likelihood`, `C85_hsmm_posterior`, `C85_impossible_refuted`, `C86_log_prob`, `C86_beam`, `C86_distinct`, `C86_exact`, `C86_greedy`, `C86_dead_end`, `C86_repeats_refuted`, `C86_dead_end_refuted`, `C87_mass`, `C87_balance`, `C87_unused`, `C87_chain_step`, `C87_chain_join`, `C87_semi_cover`, `C87_semi_join`, `C87_tree`, `C87_tree_cross`, `C87_dep`, `C87_dep_cross`, `C87_cfg`, `C87_cfg_flow`, `C88_mass`, `C88_balance`, `C88_forbidden`, `C88_chain`, `C88_semi`, `C88_tree`, `C88_dep`, `C88_cfg`, `C89_cold_partition`, `C89_cold_marginals`, `C89_entropy`, `C89_mean_score`, `C89_hot`, `C90_event`, `C90_forbid`, `C90_part`, `C90_pin`, `C90_chain`, `C90_semi`, `C90_tree`, `C90_dep`, `C90_cfg`, `C91_semi_chain`, `C91_semi_width`, `C91_one_root`, `C91_labels_partition`, `C91_labels_marginals`, `C91_labels_entropy`, `C92_markov`
* `ClassicalDedekindReals.sig_forall_dec`, `ClassicalDedekindReals.sig_not_dec`, `Epsilon.epsilon_statement`, `FunctionalExtensionality.functional_extensionality_dep` — 5 theorems:
  `C12_output`, `C12_marginals`, `C12_columns`, `C12_smoothed_columns`, `C13_padding_marginals`
* `ClassicalDedekindReals.sig_forall_dec`, `ClassicalDedekindReals.sig_not_dec`, `Classical_Prop.classic`, `Epsilon.epsilon_statement`, `FunctionalExtensionality.functional_extensionality_dep` — 19 theorems:
  `C11_partition`, `C11_partition_exact`, `C12_gradient`, `C13_padding_exact`, `C13_marginals_exact`, `C13_padding_leak`, `C13_padding_refuted`, `C58_nonproj_exact`, `C58_nonproj_smoothed`, `C83_exact`, `C83_smoothed_fails`, `C83_smoothed_partition`, `C83_smoothed_marginals`, `C84_word_order`, `C84_column_shift`, `C84_convex`, `C84_monotone`, `C84_smoothing`, `C84_column_shift_refuted`
<!-- /assumptions -->

## 3. How each property is proved

| id | model | proof |
|----|-------|-------|
| C01, C02 | `LinearChain.v`, `Chain.v` | scan of matrices = ordered product (associativity); product = sum over paths; identity padding |
| C03 | all DPs | result for row b is a function of row b (extensionality lemma) |
| C04, C05 | `SemiMarkov.v` | forward vector of the scan = beta of the standard recursion; recursion = sum over segmentations |
| C06, C07 | `CkyCrf.v`, `Cky.v` | loop invariant over widths: both charts hold the inside sums; inside sum = enumeration of trees |
| C08-C10 | `DepTree.v`, `DepSpec.v` | loop invariant over widths; Eisner items = sums over forests of ordered trees; bijection with projective head vectors |
| C11-C13 | `MatTree.v`, `MxR.v`, `NonProj.v` | multilinearity of det; det of a functional graph matrix is [acyclic]; Cramer; derivative of det. With the default eps padding invariance is refuted |
| C14-C16 | `Grad.v`, `Dag.v`, `KMax.v` | induction on graphs, any tie breaking; range bound separates pure from spurious derivations |
| C17-C19, C44 | `Dist.v`, `Query.v` | entropy / cross-entropy / KL cells are log-weight and expectation over derivations; then C01.. ; other classes raise |
| C20, C21 | `Grad.v`, `Dist.v` | softmax backward pass = posterior expectation; derivative by induction on graphs |
| C22-C24 | `Sample.v`, `DagLaw.v` | draws at every node, arbitrary (C22), weighted by softmax (C23), 16 packed in bits (C24) |
| C25-C27 | `Laws.v`, `Tensor.v` | instance per class; any bracketing by associativity |
| C28 | `Tensor.v` | list chunking; refuted for entropy (ssize 2) |
| C29-C32 | `Codec.v`, `CkyCodec.v` | round-trip lemmas; the lossy cases as `_refuted` |
| C33, C34 | `Adapters.v` | score identity + C01/C04 |
| C35, C36 | `Sparse.v` | sorted lists of reals, KKT conditions; derivative on a neighbourhood with constant support |
| C37-C39, C46, C47 | `AutoReg.v` | beam search as a state machine over flattened (beam, batch) indices; law of ancestral sampling |
| C40 | `P_Count.v` | StdSemiring instance on 0/1 potentials; closed forms |
| C41 | `History.v` | state machine with class attribute and lazy cache; refuted in general, exact characterisation of what holds |
| C42 | `Gumbel.v` | every draw is one pure derivation; noise shared by equal rows; law refuted on a chain of 5 |
| C43, C48 | `Align.v` | attribute lookup along the MRO; argument binding |
| C45 | checks of each class | exceptions as values |
| C49, C50, C52 | `Learn.v` | monotonicity, convexity and tangents by induction on graphs / Hoelder-free log-sum-exp argument over derivations; quotient rule for marginals; shifts through the specification side |
| C51 | `Mask.v` | the same DPs run on reals extended by minus infinity; weight = allowed structures + spurious derivations |
| C53 | `Shard.v` | backward of the sharded product, loop invariant over shards; for Log and Std the result is the derivative of the product |
| C54 | `Networkx.v`, `P_Graph.v` | the loop of `to_networkx` over any argsort order; invariant: the processed spans are exactly the nodes of narrower subtrees |
| C55 | `Fast.v`, `P_Graph.v` | broadcast, flatten, contracted batched product, view back: index arithmetic against the plain product |
| C56 | `P_Cross.v` | relations between the results of different queries, from their values (C14-C23) and facts on the spec side (Gibbs, uniqueness of the k best) |
| C57 | `P_Round.v`, `P_RoundLp.v` | `score` and `log_prob` over every reduction tree (`P_RoundLp.v`); the rest by induction over the graph: relative error of masked and unmasked cells, weights of the backward pass; size of each family's graph (`Size.v`); contracts from elementary operations (`Machine.v`), examples in binary32 (`P_Float.v`). Not covered: rounding while gradients are accumulated (each factor may carry the error), overflow |
| C58 | `P_Oracle.v` | `Oracle.v` models the enumerations, `OracleSpec.v` proves each a permutation-free listing of the structures (induction on the length; invariant of the graph traversal for `_is_spanning`; crossing arcs versus ancestors for `_is_projective`); then the value theorems C14, C16, C17, C20, C34, C40, C11. Not covered: enumerations with lengths, `AlignmentTest` |
| C59 | `P_Sym.v` | `Sym.v`: a bijection between the structures of two specifications that renames the parts carries over every query (value theorems C14, C15, C17, C20); `SymMaps.v`: the bijections (relabelling, reversal, mirror image of trees and head vectors, width-one segments), each an induction over the structure |
| C60 | `P_Grammar.v` | `Grammar.v` models NeuralCFG.forward over arbitrary embeddings and defines probabilistic grammars by derivation trees; parses with words are in bijection with derivations; mass of all derivations up to a height by induction on the height |
| C61 | `P_Train.v` | `Train.v` models the tensor code around the networks of BertTagger.ipynb and bert-dep.py; directional derivatives of the graph value; counting lemmas for one-hot tensors on top of C15, C21, C29, C31 |
| C62 | `P_Reinforce.v` | `Reinforce.v` models SelfCritical.forward and the policy objective; derivative of a Gibbs average is a covariance; expectation over the draws by the sample law C23, directional derivative of the partition by C61 |
| C63 | `P_Straight.v` | `Straight.v` models ST.backward and the reverse run of the recorded backward pass; induction over the graph gives the closed formula; derivative of the relaxed objective by calculus; refutations on one word with two labels and on two words |
| C64 | `P_SparseMarg.v` | `SparseMarg.v` evaluates the computation graphs with `sparse_sum` and backpropagates with the projection; each projection is a distribution supported within 1 of the maximum and each sum is within 2 of it; induction over the graph; refutations on one class and on five classes |
| C65 | `P_LogProb.v` | `LogProb.v` models `score` and `log_prob` on whole tensors with torch broadcasting and the row-major `view`; a block of a contiguous tensor is the set of its remaining indices (induction over the shape) |
| C66 | `P_Depth.v` | longest chain of nested operations (`nested`, an inductive definition) in the graph that the program builds; exact depth of every chart cell by induction over scan rounds and widths |
| C67 | `ListOps.v`, `P_ListOps.v` | the reader, the batch tensor, `expand_spans` and `show` run as written; trees of any arity with their text, yield and constituents as specification; induction over trees, graphs by C54 |
| C68 | `TreeLstm.v`, `P_TreeLstm.v` | the DGL levels run one after the other; invariant over the levels by node height; both passes; recursion over labelled trees as specification |
| C69 | `Subword.v`, `P_Subword.v` | induction over the pieces of a word, then over the words; positions of the entries in closed form; the mapper as a list of written cells |
| C70 | `SpanLstm.v`, `P_SpanLstm.v` | hidden vectors of the run as folds over prefixes and suffixes; rows through C03; a one-unit network and C20 for the padding |
| C71 | `Pair.v`, `P_Pair.v` | slice assignment of tensors of equal rank, then C18 and C19; two chains of different lengths for the refutation |
| C72 | `P_EntGrad.v` | the value over all derivations of the computation (`entropy_code`, `cross_code`), differentiated as in C50; covariances compared with those over structures |
| C73 | `Validate.v`, `P_Validate.v` | the loop over `arg_constraints` by a contract for torch.distributions; case analysis over arbitrary entries |
| C74 | `NbSplit.v`, `P_NbSplit.v` | loop invariants; `nonzero` is lexicographically sorted, spans of a tree are laminar (`CkyCodec.v`) |
| C75 | `Effects.v`, `P_Effects.v` | transcripts of the library in a small language of new tensors, views, in-place writes and flags, with a nondeterministic semantics that may raise anywhere; a static analysis, proved sound by induction on programs and runs, evaluated on every transcript |
| C76 | `Spans.v`, `P_Spans.v` | an offset on every `span[w]`, with parts for the constituents; the inside recursion with offsets, then the value theorems over families (`Dist.v`, `KMax.v`) on recorded graphs; which offsets a row can reach by induction over widths |
| C77 | `Special.v`, `P_Special.v` | the expectation semirings over floats with infinities and NaN; induction over the graph: a NaN or an absorbed -inf survives every sum and product; for finite results a weighted-sum invariant; which sums can be -inf by induction over the charts |
| C78 | `MaskGrad.v`, `P_MaskGrad.v` | the backward pass of a recorded graph on floats with infinities and NaN (the rule of `logsumexp` is `grad * (input - result).exp()`; cells that do not feed the result are visited with gradient 0); NaN spreads exactly along paths below a dead sum, the finite part is a backward pass with conditional softmax weights; which cells of the chain and tree tables are dead by induction over the charts |
| C79 | `P_MaskSample.v` | draws of weight softmax at every node of a recorded graph, NaN weights raise; `DagLaw.v` shows for any weights that fit a law of derivations that one draw per node gives this law (induction over the nodes, restricted to nodes of positive weight); the leak is bounded as in C23 |
| C80 | `P_MaskKMax.v` | KMaxSemiring over extended reals (`MaskKMax.v`); the finite entries of every value behave as in C16 (the map to the list of finite entries commutes with topk, concatenation and pairwise sums); the positions returned by torch.topk select derivations as in C16 (`KMax.v`, sections Picks and KGraph, any ordered carrier) |
| C81 | `P_MaskDep.v` | the backward pass and the draws of C78 and C79 on the charts of DepTree and SemiMarkov; `MaskDep.v` lists the cells each of them records and proves by induction over the widths that a span sum is finite when the chain of neighbouring arcs is, and that the shortest spans are sums of one argument; every semi-Markov potential enters a sum with a class constant |
| C82 | `P_MaskCfg.v` | the backward pass of C78 on the chart of CKY; all cells stay finite by induction over the widths when every block keeps a rule, because the width-0 cells hold the finite zero; a block without a rule is a recorded sum that is -inf at the first width |
| C83 | `P_MaskNp.v` | from the matrix-tree sums of C11 and C12, which allow -inf; a root score gets no smoothing and every tree has a root, and the tree with all words below an allowed root keeps a positive weight |
| C84 | `P_NpSym.v` | from the tree sums of C11 and C12: renaming permutes the trees; convexity by Hoelder for sums of products of exp + eps; every smoothed arc weight is at most (1 + eps exp(-m)) times the exact one and a tree has at most N - 1 arcs |
| C85 | `P_MaskHmm.v` (models xhmm, xhsmm over extended reals) | the product of exp of the potentials of a sequence is its joint probability as a product, by induction on the sequence; a sequence is allowed iff its probability is positive; then C51, C78 and C81 |
| C86 | `P_MaskAr.v` (AutoReg.v again, with logits in the reals or minus infinity and scores that may be NaN) | invariant of the beam: every slot holds an allowed sequence and the log of its weight (times exp(-1e5) for descendants of dummies), since K slots always have K allowed continuations (pigeonhole); back pointers by replaying the chosen indices in the real-valued model with suitable noise; ancestral sampling by induction on the steps |
| C87 | `P_Local.v` (no new code: `q_marginals` of `Query.v`) | a weighted sum of marginals is the mean of the weighted number of parts of a structure (C20 and exchanging two sums), so a relation that every structure satisfies carries over; the relations by induction on sequences, segmentations, binary trees, parses and head vectors (crossing arcs: antisymmetry of the ancestor relation) |
| C88 | `P_MaskLocal.v` (no new code: `f_marginals` of `P_MaskGrad.v`) | as C87, with the mean taken over the allowed structures (C78: an entry that is a number is a conditional expectation); the hypotheses that exclude NaN from C78, C81 and C82 |
| C89 | `P_Temp.v` (no new code: the queries of `Query.v`) | the value theorems C14, C15, C17, C20 and C49 at the scaled potentials; on the specification side the log-partition lies above its tangents (Gibbs' inequality), which gives both monotonicity statements; the lead of a structure bounds the probability of every other one |
| C90 | `P_Partial.v` (no new code: `x_partition` of `Mask.v`, `q_marginals` of `Query.v`) | C78 gives the masked share as the probability of avoiding the set; sums of marginals are means of the number of selected parts (as in C87); the two functions of a structure are compared pointwise with the counting lemmas of `P_Local.v` |
| C91 | `P_Classes.v` (no new code: two calls of `Api.v` side by side) | `embeds` and `covers` map the structures of one row to those of another with renamed parts; the value theorems C14, C17 and C20 carry the map to the queries. Labels: induction over trees and head lists in any commutative semiring; the marginals by the chain rule, since `marginals` is the gradient of `partition` (C20) |
| C92 | `P_Markov.v` (no new code: `q_marginals` and `q_partition` of `Query.v`) | marginals factor into forward and backward weights (sums over prefixes and suffixes); the product over a sequence telescopes; errors of products by `prod_close` |

## 4. Defects of the code that the model exposes

Each is a theorem (mostly `..._refuted`), not an opinion:
`deptree_part` adds eps to padding rows (C13); `DepTree.multiroot` is a class attribute set by every constructor (C41);
AlignmentCRF always raises, and passes `local` as `sparse_rounds` (C43); `kl` / `cross_entropy` work for two classes only (C18);
`greedy_tempmax` passes alpha as `gumbel` (C47); `Autoregressive.sample` always normalises (C46);
`CheckpointShardSemiring` is wrong for ssize > 1 (C28), and its backward needs a dimension of size 1 (C53); the value of SparseMax is not the function its gradient
belongs to (C36); `CKY.to_parts` needs lengths (C32); `SentCFG.log_prob/count/sample` raise (C21, C40);
a chain of length 1 has no edge (C29, C33); semi-Markov `from_parts` can lose the first label (C30); self-loop heads decode
as root (C31); `KMax` breaks the unit law on wide cells (C25); the finite zero wins over potentials below -1e5 (C26);
a LinearChainCRF partition is finite even with every potential at minus infinity, and `log_prob` is NaN for allowed structures
when some potential of the row is minus infinity (C51);
`to_networkx` accepts two labels on one span and builds a doubled edge (C54); the Fast classes raise NameError without genbmm and
reject operands of different rank (C55); the masks of `bert-dep.py` zero the scores of the last word of every sentence,
and a crossing gold tree makes its objective unbounded (C61); `tree.py` trains on trees over the padding because it drops the lengths (C62); the straight-through gradient of a constant loss is not zero and the backward pass through `gumbel_crf` draws new noise (C63);
with SparseMaxSemiring the best structure can get marginal zero and every sum subtracts up to one from the value (C64);
`log_prob` of an event without batch dimension adds up the scores of all rows (C65); `valid_show` prints gold trees as predicted
and predicted trees as gold, and unclosed brackets are accepted by the reader (C67); `TreeLSTM.py` propagates twice, which doubles the
cell of every word (C68); the CoNLL reader adds an empty sentence, and `token_pre` reads words at the wrong token behind a word
split at punctuation (C69); `SpanLSTM` scores depend on the padding, and the score of a whole row on no word (C70);
`kl` and `cross_entropy` ignore the lengths of the other distribution (C71). `_dp_standard` reads
a row of length zero as one of full length (C05). With `validate_args=True` SentCFG and AlignmentCRF
cannot be built, and the others but NonProjectiveDependencyCRF only with `lengths` (C73). `split` of Unsupervised_CFG.ipynb never returns a split point (C74).
With a potential of minus infinity `entropy` and `kl` are NaN (C77), and a TreeCRF gives NaN marginals when a span, or every span ending in a padding word, is forbidden (C78); `sample` raises then, even for a pair of positions that belongs to no tree (C79). `kmax` with k >= 2 answers a finite number when everything is forbidden, where `max` answers -inf (C80). A DependencyCRF gives NaN marginals and cannot be sampled when an arc between neighbouring words is forbidden (C81). A SentCFG whose grammar has no rule of one of the four kinds for some nonterminal gives NaN marginals (C82). A NonProjectiveDependencyCRF in which a word has no allowed head gives a finite partition and zero marginals for that word instead of -inf (C83).
Asking a chain, semi-Markov or tree distribution anything but `count` sets requires_grad on the
caller's potentials, and `to_event`/`from_event` of TreeCRF return their argument itself (C75).
