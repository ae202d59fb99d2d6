{"id": "C01", "title": "Linear-chain sum equals enumeration", "statement": "For a b x (N-1) x C x C potential tensor and lengths accepted by the API, LinearChain(semiring).sum returns for every batch element the semiring sum, over all label sequences of that element's length, of the semiring product of the edge potentials along the sequence.", "quantifier": "every lawful commutative semiring, every batch size, N >= 2, C >= 1, every potential tensor, every admissible lengths vector", "why_tests_cant": "the enumeration used by the tests is exponential, so tests only sample N <= 3 or 4; the claim is for every size and every potential tensor", "anchors": ["torch_struct/linearchain.py:LinearChain.logpartition", "torch_struct/helpers.py:_Struct.sum", "torch_struct/helpers.py:_Struct._bin_length"]}
{"id": "C02", "title": "Linear-chain padding invariance", "statement": "The value returned for a batch element of length L does not depend on N, on the power-of-two padding, or on the potentials at positions >= L-1: it equals the value returned for the truncated chain alone.", "quantifier": "every chain, every length 1 <= L <= N, every padding size 2^k >= N-1, every content of the masked region", "why_tests_cant": "the padding size jumps with N and tests cannot try every amount of padding nor every garbage value in the padded region", "anchors": ["torch_struct/linearchain.py:LinearChain.logpartition", "torch_struct/helpers.py:_Struct._bin_length"]}
{"id": "C03", "title": "Batch elements do not interact", "statement": "The result for batch element b of sum is a function of row b of the potentials and of lengths[b] only; other rows cannot change it.", "quantifier": "every batch size, every pair of batches agreeing on row b, all structures (chain, semi-Markov, tree, CFG, dependency)", "why_tests_cant": "a non-interference statement over pairs of arbitrary inputs", "anchors": ["torch_struct/linearchain.py:LinearChain.logpartition", "torch_struct/semimarkov.py:SemiMarkov.logpartition", "torch_struct/cky_crf.py:CKY_CRF.logpartition", "torch_struct/cky.py:CKY.logpartition", "torch_struct/deptree.py:DepTree.logpartition"]}
{"id": "C04", "title": "Semi-Markov sum equals enumeration", "statement": "SemiMarkov(semiring).sum returns for every batch element the semiring sum over all labelled segmentations of the element's length into segments of width 1..K-1, of the product of the segment potentials.", "quantifier": "every lawful commutative semiring, N >= 2, K >= 2, C >= 1, every potential tensor and admissible lengths", "why_tests_cant": "the enumeration used by the tests is exponential, so tests only sample N <= 3 or 4; the claim is for every size and every potential tensor", "anchors": ["torch_struct/semimarkov.py:SemiMarkov.logpartition"]}
{"id": "C05", "title": "Semi-Markov scan agrees with the textbook recursion", "statement": "SemiMarkov.logpartition (parallel scan) and SemiMarkov._dp_standard return the same values on the same input, for all lengths from one on. A row of length zero is read by _dp_standard as a row of full length.", "quantifier": "every lawful commutative semiring, every N, K, C, potentials, lengths", "why_tests_cant": "equality of two algorithms on all inputs; tests compare them on N <= 3", "anchors": ["torch_struct/semimarkov.py:SemiMarkov.logpartition", "torch_struct/semimarkov.py:SemiMarkov._dp_standard"]}
{"id": "C06", "title": "TreeCRF sum equals enumeration", "statement": "CKY_CRF(semiring).sum returns the semiring sum over all binary bracketings of the first lengths[b] words and all labellings of their spans, of the product of the span potentials.", "quantifier": "every lawful commutative semiring, N >= 1, NT >= 1, every potential tensor, every lengths vector with 1 <= lengths[b] <= N", "why_tests_cant": "the enumeration used by the tests is exponential, so tests only sample N <= 3 or 4; the claim is for every size and every potential tensor", "anchors": ["torch_struct/cky_crf.py:CKY_CRF.logpartition"]}
{"id": "C07", "title": "SentCFG sum equals enumeration", "statement": "CKY(semiring).sum returns the semiring sum over all parse trees of the first lengths[b] >= 2 words (preterminals at the leaves, nonterminals elsewhere) of root * rules * terms.", "quantifier": "every lawful commutative semiring, every N >= 2, NT >= 1, T >= 1, every grammar potentials, every lengths", "why_tests_cant": "the enumeration used by the tests is exponential, so tests only sample N <= 3 or 4; the claim is for every size and every potential tensor", "anchors": ["torch_struct/cky.py:CKY.logpartition"]}
{"id": "C08", "title": "Projective dependency sum equals enumeration (multi-root)", "statement": "DependencyCRF(multiroot=True): DepTree.sum returns the semiring sum over all projective dependency trees over the first lengths[b] words (root may have several children) of the product of arc potentials, root arcs on the diagonal.", "quantifier": "every lawful commutative semiring, every N >= 1, every arc potential tensor, every lengths", "why_tests_cant": "the enumeration used by the tests is exponential, so tests only sample N <= 3 or 4; the claim is for every size and every potential tensor", "anchors": ["torch_struct/deptree.py:DepTree.logpartition", "torch_struct/deptree.py:convert"]}
{"id": "C09", "title": "Projective dependency sum equals enumeration (single-root)", "statement": "With multiroot=False, DepTree.sum returns the semiring sum over the projective dependency trees in which the root has exactly one child.", "quantifier": "every lawful commutative semiring, every N >= 1, every arc potential tensor, every lengths", "why_tests_cant": "the enumeration used by the tests is exponential, so tests only sample N <= 3 or 4; the claim is for every size and every potential tensor", "anchors": ["torch_struct/deptree.py:DepTree.logpartition"]}
{"id": "C10", "title": "Labeled dependency potentials", "statement": "A b x N x N x L potential tensor gives the same sum as the enumeration of projective trees with one label per arc.", "quantifier": "every lawful commutative semiring, every N, L >= 1, every labelled arc potential tensor", "why_tests_cant": "the enumeration used by the tests is exponential, so tests only sample N <= 3 or 4; the claim is for every size and every potential tensor", "anchors": ["torch_struct/deptree.py:DepTree.logpartition"]}
{"id": "C11", "title": "Non-projective partition is the matrix-tree sum", "statement": "exp(deptree_part(arc_scores, multi_root)) equals the sum over all (not necessarily projective) spanning arborescences - any number of root children if multi_root, exactly one otherwise - of the product of root weights exp(phi(i,i)) and arc weights exp(phi(i,j)) + eps.", "quantifier": "every N >= 1, every real score matrix, every eps >= 0", "why_tests_cant": "the tests leave the numerical comparison commented out; the identity is an algebraic theorem about determinants of every size", "anchors": ["torch_struct/deptree.py:deptree_part"]}
{"id": "C12", "title": "Non-projective marginals are arc posteriors", "statement": "deptree_nonproj returns, for every ordered pair, exp(phi(i,j)) times the summed weight of the trees' remaining arcs divided by the partition function of deptree_part, i.e. the gradient of the log-partition; with eps = 0 this is the posterior probability of the arc and the columns sum to one; with eps > 0 and at least two words every column sums to strictly less than one.", "quantifier": "every N >= 1, every real score matrix with nonzero partition, both root modes", "why_tests_cant": "needs an identity between matrix inverses and tree sums for every size", "anchors": ["torch_struct/deptree.py:deptree_nonproj"]}
{"id": "C13", "title": "Non-projective padding invariance", "statement": "Padding a sentence (lengths[b] < N) changes neither its non-projective log-partition nor its marginals when eps = 0, and padded words never receive marginal mass. With the default smoothing eps > 0 the padded log-partition is strictly larger than the unpadded one: invariance is false of the code as shipped.", "quantifier": "every 1 <= length <= N, both root modes, every score matrix; every eps > 0 for the strict increase", "why_tests_cant": "requires all amounts of padding; the smoothing constant leaks into padded rows, which only a symbolic computation exposes", "anchors": ["torch_struct/deptree.py:deptree_part", "torch_struct/deptree.py:deptree_nonproj"]}
{"id": "C14", "title": "max is the best structure's score", "statement": "dist.max equals the largest score of any structure, although the library represents the semiring zero by the finite number -1e5.", "quantifier": "every structure family, every size, every potential tensor whose magnitudes are small against 1e5 (explicit bound)", "why_tests_cant": "the -1e5 stand-in for minus infinity is only sound inside an explicit range which tests cannot map out", "anchors": ["torch_struct/distributions.py:StructDistribution.max", "torch_struct/semirings/semirings.py:MaxSemiring"]}
{"id": "C15", "title": "argmax is one optimal structure", "statement": "dist.argmax is the 0/1 indicator of the parts of exactly one structure, and that structure attains dist.max, whatever way ties are broken.", "quantifier": "every structure family, every size, every potential tensor in range, every tie-breaking of torch.max", "why_tests_cant": "ties have measure zero under random test inputs; sizes are unbounded", "anchors": ["torch_struct/distributions.py:StructDistribution.argmax", "torch_struct/helpers.py:_Struct.marginals", "torch_struct/semirings/semirings.py:MaxSemiring"]}
{"id": "C16", "title": "kmax / topk are the k best structures", "statement": "dist.kmax(k) lists the k largest structure scores in decreasing order and dist.topk(k) the indicators of k different structures attaining them, when at least k structures exist. (SentCFG.topk returns, for terms, rules and roots, the counts of the k best parses added up.)", "quantifier": "every k >= 1, every structure family, every size, every potential tensor in range, every tie-breaking of torch.topk", "why_tests_cant": "k and the sizes are unbounded; ties are never hit by random inputs", "anchors": ["torch_struct/distributions.py:StructDistribution.kmax", "torch_struct/distributions.py:StructDistribution.topk", "torch_struct/semirings/semirings.py:KMaxSemiring"]}
{"id": "C17", "title": "entropy is the Shannon entropy of the distribution", "statement": "dist.entropy equals minus the sum over all structures of p(z) log p(z). Exactly so for TreeCRF and DependencyCRF; for the classes whose chart contains the finite zero -1e5 (LinearChainCRF, SemiMarkovCRF, SentCFG) up to an explicit error term proportional to exp(-1e5 + 2*degree*max|phi|).", "quantifier": "every structure family, every size, every potential tensor", "why_tests_cant": "the enumeration used by the tests is exponential, so tests only sample N <= 3 or 4; the claim is for every size and every potential tensor", "anchors": ["torch_struct/distributions.py:StructDistribution.entropy", "torch_struct/semirings/semirings.py:EntropySemiring"]}
{"id": "C18", "title": "cross_entropy is the cross entropy of two distributions", "statement": "p.cross_entropy(q) equals minus the sum over all structures of p(z) log q(z). Exactly so for TreeCRF; for LinearChainCRF, whose chart contains the finite zero -1e5, up to an explicit error term proportional to exp(-1e5 + 2*degree*max|phi|). SemiMarkovCRF, DependencyCRF and SentCFG raise.", "quantifier": "every structure family on which the call is defined, every size, every pair of potential tensors", "why_tests_cant": "the enumeration used by the tests is exponential, so tests only sample N <= 3 or 4; the claim is for every size and every potential tensor", "anchors": ["torch_struct/distributions.py:StructDistribution.cross_entropy", "torch_struct/semirings/semirings.py:CrossEntropySemiring"]}
{"id": "C19", "title": "kl is the Kullback-Leibler divergence", "statement": "p.kl(q) equals the sum over structures of p(z)(log p(z) - log q(z)); it is cross_entropy minus entropy, never negative, and zero when p and q have the same potentials. Exactly so for TreeCRF; for LinearChainCRF, whose chart contains the finite zero -1e5, up to an explicit error term proportional to exp(-1e5 + 2*degree*max|phi|). SemiMarkovCRF, DependencyCRF and SentCFG raise.", "quantifier": "every structure family on which the call is defined, every size, every pair of potential tensors", "why_tests_cant": "non-negativity is a statement about all pairs of real inputs", "anchors": ["torch_struct/distributions.py:StructDistribution.kl", "torch_struct/semirings/semirings.py:KLDivergenceSemiring"]}
{"id": "C20", "title": "marginals are posterior expectations and the gradient of the log-partition", "statement": "dist.marginals[part] equals the sum over structures of p(z) times the number of uses of the part in z, and it is the derivative of dist.partition with respect to that part's log-potential. Exactly so for TreeCRF and DependencyCRF; for the classes whose chart contains the finite zero -1e5 (LinearChainCRF, SemiMarkovCRF, SentCFG) up to an explicit error term proportional to exp(-1e5 + 2*degree*max|phi|).", "quantifier": "every structure family, every size, every potential tensor, every part", "why_tests_cant": "derivative identities hold for all reals; finite differences only approximate them at samples", "anchors": ["torch_struct/distributions.py:StructDistribution.marginals", "torch_struct/helpers.py:_Struct.marginals", "torch_struct/semirings/semirings.py:LogSemiring"]}
{"id": "C21", "title": "log_prob is normalised", "statement": "The probabilities exp(dist.log_prob(event(z))) over all structures z are positive and sum to one. Exactly so for TreeCRF and DependencyCRF; for the classes whose chart contains the finite zero -1e5 (LinearChainCRF, SemiMarkovCRF) up to an explicit error term proportional to exp(-1e5 + 2*degree*max|phi|). SentCFG raises.", "quantifier": "every structure family with tensor events, every size, every potential tensor", "why_tests_cant": "the enumeration used by the tests is exponential, so tests only sample N <= 3 or 4; the claim is for every size and every potential tensor", "anchors": ["torch_struct/distributions.py:StructDistribution.log_prob", "torch_struct/helpers.py:_Struct.score"]}
{"id": "C22", "title": "Every sample is a structure", "statement": "Whatever the random number generator returns, a sample is the indicator of the parts of exactly one derivation of the dynamic program (no half structures, no part counted twice).", "quantifier": "every outcome of every draw at every node, every structure family, every size", "why_tests_cant": "needs all outcomes of the random source, not those of some seeds", "anchors": ["torch_struct/semirings/sample.py:_SampledLogSumExp", "torch_struct/semirings/sample.py:_MultiSampledLogSumExp", "torch_struct/distributions.py:StructDistribution.sample"]}
{"id": "C23", "title": "Samples have exactly the right distribution", "statement": "If each node draws from the softmax of its inputs, the probability that a sample is structure z is exp(score(z)) / Z.", "quantifier": "every structure family, every size, every potential tensor, every structure", "why_tests_cant": "frequency tests bound an error at best; the claim is an exact equality for every structure", "anchors": ["torch_struct/semirings/sample.py:_SampledLogSumExp", "torch_struct/distributions.py:StructDistribution.sample"]}
{"id": "C24", "title": "Sixteen packed samples unpack to what was drawn", "statement": "MultiSampledSemiring packs 16 independent samples in the bits of one gradient; to_discrete(., j) recovers exactly the j-th sample, with no carry between samples, for the bit positions used by sample().", "quantifier": "every gradient history, every set of draws, every j in range", "why_tests_cant": "requires all interleavings of the 16 draws at every node", "anchors": ["torch_struct/semirings/sample.py:_MultiSampledLogSumExp", "torch_struct/semirings/sample.py:MultiSampledSemiring.to_discrete", "torch_struct/distributions.py:StructDistribution.sample"]}
{"id": "C25", "title": "Semiring laws", "statement": "For StdSemiring, LogSemiring, MaxSemiring, KMaxSemiring(k), EntropySemiring, CrossEntropySemiring and KLDivergenceSemiring: sum is associative and order independent, mul is associative and commutative with unit one (in KMaxSemiring(k) one is a unit exactly for cells whose entries spread at most 1e5), and mul distributes over sum.", "quantifier": "all values of the carrier, every k >= 1", "why_tests_cant": "algebraic laws over all reals; tests compare a few random tensors", "anchors": ["torch_struct/semirings/semirings.py"]}
{"id": "C26", "title": "The finite zero is not absorbing", "statement": "In the log-space semirings the constant zero = -1e5 is not a neutral element of sum nor an absorbing element of mul: there are inputs on which zero changes the result, and potentials below the constant are silently replaced by it.", "quantifier": "existence of inputs, plus the exact value returned by LinearChain for every input under MaxSemiring", "why_tests_cant": "the failing inputs lie outside the range tests draw from", "anchors": ["torch_struct/semirings/semirings.py:_BaseLog", "torch_struct/linearchain.py:LinearChain.logpartition"]}
{"id": "C27", "title": "Generic matmul and dot", "statement": "Semiring.matmul(a, b)[i,j] is the semiring sum over k of a[i,k]*b[k,j]; matmul is associative, so the parallel scan may bracket products in any way.", "quantifier": "every lawful semiring, all matrix sizes, all brackets", "why_tests_cant": "associativity over all sizes and all values", "anchors": ["torch_struct/semirings/semirings.py:matmul", "torch_struct/semirings/semirings.py:Semiring.dot"]}
{"id": "C28", "title": "Checkpointed and sharded matmul return the plain result", "statement": "CheckpointSemiring(cls) and CheckpointShardSemiring(cls, max_size) matmul return exactly cls.matmul for every batch size, every broadcast and every max_size (shard boundaries do not matter), for semirings of size 1.", "quantifier": "every batch shape, every max_size >= 0, every input", "why_tests_cant": "shard boundaries depend on max_size and sizes in all combinations", "anchors": ["torch_struct/semirings/checkpoint.py:CheckpointSemiring", "torch_struct/semirings/checkpoint.py:CheckpointShardSemiring", "torch_struct/semirings/checkpoint.py:accumulate_"]}
{"id": "C29", "title": "Linear-chain event round trip", "statement": "from_event(to_event(seq)) returns seq (masked positions become 0) for every row of length at least 2; a row of length 1 has no edge and decodes to zeros. to_event(from_event(e)) returns e for every event e that represents sequences of the given lengths.", "quantifier": "every N >= 2, C >= 1, every label sequence, every lengths", "why_tests_cant": "all sequences of all lengths", "anchors": ["torch_struct/linearchain.py:LinearChain.to_parts", "torch_struct/linearchain.py:LinearChain.from_parts"]}
{"id": "C30", "title": "Semi-Markov event round trip", "statement": "to_event(seq) is the indicator of a labelled segmentation and from_event(to_event(seq)) returns seq for every segment-start encoding whose first entry is a label, whose segments have width < K and which has a second label (without one the first label is lost); a first entry -1 is rejected; lengths have no effect on to_event.", "quantifier": "every N, K, C, every admissible sequence", "why_tests_cant": "all sequences of all lengths", "anchors": ["torch_struct/semimarkov.py:SemiMarkov.to_parts", "torch_struct/semimarkov.py:SemiMarkov.from_parts"]}
{"id": "C31", "title": "Dependency event round trip", "statement": "from_event(to_event(heads)) returns heads for every head vector without self loops (entries past lengths[b] become 0), and the event has exactly one head per in-range word.", "quantifier": "every N, every head vector, every lengths", "why_tests_cant": "all head vectors", "anchors": ["torch_struct/deptree.py:DepTree.to_parts", "torch_struct/deptree.py:DepTree.from_parts", "torch_struct/deptree.py:convert", "torch_struct/deptree.py:unconvert"]}
{"id": "C32", "title": "CFG span chart to rule counts", "statement": "CKY.to_parts applied to the span chart of a parse tree returns exactly the terms, rule counts and root of that tree, and never fails its internal assertion.", "quantifier": "every parse tree of every size over every grammar size", "why_tests_cant": "all trees of all sizes", "anchors": ["torch_struct/cky.py:CKY.to_parts", "torch_struct/cky.py:CKY._intermediary"]}
{"id": "C33", "title": "HMM adapter", "statement": "With potentials from LinearChain.hmm, the score of a state sequence is its joint log-probability with the observations, so exp(partition) is the likelihood of the observations. This needs a row length of at least 2: a row of length 1 has no edge to carry its emission and gets log C instead.", "quantifier": "every C, V, N >= 2, every parameter setting and observation sequence", "why_tests_cant": "the enumeration used by the tests is exponential, so tests only sample N <= 3 or 4; the claim is for every size and every potential tensor", "anchors": ["torch_struct/linearchain.py:LinearChain.hmm", "torch_struct/distributions.py:HMM"]}
{"id": "C34", "title": "HSMM adapter", "statement": "With potentials from SemiMarkov.hsmm, the score of a labelled segmentation is the joint log-probability of initial state, transitions, durations and segment emissions, for row lengths of at least 2.", "quantifier": "every C, K, N, every parameter setting, every segmentation", "why_tests_cant": "the enumeration used by the tests is exponential, so tests only sample N <= 3 or 4; the claim is for every size and every potential tensor", "anchors": ["torch_struct/semimarkov.py:SemiMarkov.hsmm"]}
{"id": "C35", "title": "Sparsemax projects onto the simplex", "statement": "project_simplex(v) is the Euclidean projection of v on the probability simplex: entries are >= 0, sum to one, and no other point of the simplex is closer.", "quantifier": "every dimension n >= 1, every real vector", "why_tests_cant": "optimality against all points of a continuum", "anchors": ["torch_struct/semirings/sparse_max.py:project_simplex"]}
{"id": "C36", "title": "Sparsemax backward", "statement": "sparsemax_grad keeps the support, its output sums to zero over the support and equals the Jacobian-vector product of project_simplex where the support is locally constant; the forward value of SparseMaxSemiring.sum is not the potential whose gradient backward returns.", "quantifier": "every dimension, every real vector, every incoming gradient", "why_tests_cant": "derivatives at all points", "anchors": ["torch_struct/semirings/sparse_max.py:sparsemax_grad", "torch_struct/semirings/sparse_max.py:_SimplexProject"]}
{"id": "C37", "title": "Beam scores are the log-probabilities of the returned paths", "statement": "Every hypothesis returned by beam_topk / greedy_max carries the score that log_prob assigns to its path (for hypotheses descending from the real initial beam).", "quantifier": "every autoregressive model, every K, n_length, n_classes, batch size", "why_tests_cant": "the model is an arbitrary user function; batch and beam indices are flattened and re-gathered at every step", "anchors": ["torch_struct/autoregressive.py:Autoregressive._beam_search", "torch_struct/autoregressive.py:Autoregressive.log_prob"]}
{"id": "C38", "title": "Beam hypotheses are distinct and a wide beam is exact", "statement": "beam_topk returns hypotheses in decreasing score order which are pairwise different sequences, and if K is at least n_classes^(n_length-1) they are the K best sequences overall.", "quantifier": "every model with scores small against 1e5, every K, n_length, n_classes", "why_tests_cant": "all models, unbounded sizes", "anchors": ["torch_struct/autoregressive.py:Autoregressive._beam_search", "torch_struct/semirings/semirings.py:KMaxSemiring"]}
{"id": "C39", "title": "Autoregressive log_prob is normalised", "statement": "With normalize=True the probabilities exp(log_prob(y)) over all n_classes^n_length sequences sum to one.", "quantifier": "every model, every n_length, n_classes", "why_tests_cant": "the enumeration used by the tests is exponential, so tests only sample N <= 3 or 4; the claim is for every size and every potential tensor", "anchors": ["torch_struct/autoregressive.py:Autoregressive.log_prob"]}
{"id": "C40", "title": "count is the number of structures", "statement": "dist.count is the number of structures all of whose parts have a potential different from minus infinity (C^N for chains, number of segmentations, bracketings, projective trees); SentCFG.count always raises.", "quantifier": "every structure family, every size, every choice of minus-infinite potentials", "why_tests_cant": "the enumeration used by the tests is exponential, so tests only sample N <= 3 or 4; the claim is for every size and every potential tensor", "anchors": ["torch_struct/distributions.py:StructDistribution.count", "torch_struct/semirings/semirings.py:StdSemiring"]}
{"id": "C41", "title": "A distribution object's answers depend only on its own arguments", "statement": "The partition of a DependencyCRF depends only on the arguments it was constructed with, not on other DependencyCRF objects created in between. This is false of the code: the answer is the one for the multiroot argument of the DependencyCRF constructed last before the property was first read; it is true as long as all DependencyCRF objects share one multiroot, and for every other class.", "quantifier": "every history of constructions and queries", "why_tests_cant": "a history property: needs all interleavings of constructions and first uses of cached properties", "anchors": ["torch_struct/distributions.py:DependencyCRF.__init__", "torch_struct/deptree.py:DepTree.logpartition"]}
{"id": "C42", "title": "gumbel_crf", "statement": "gumbel_crf returns, for every noise, the 0/1 event of one structure of every row, whatever the temperature; but it is not a sampler of the CRF: the noise is drawn once per sum and broadcast, so equal rows of a batch always get equal samples, and in a chain of five with equal scores the second and fourth label always agree while the CRF lets them differ with probability 1/2.", "quantifier": "every call, every noise, every temperature, every choice of index among the largest", "why_tests_cant": "independence failures are invisible in marginal frequencies of single entries, and no test looks at joint laws", "anchors": ["torch_struct/semirings/sample.py:GumbelMaxSemiring", "torch_struct/semirings/sample.py:GumbelCRFSemiring", "torch_struct/distributions.py:StructDistribution.gumbel_crf"]}
{"id": "C43", "title": "AlignmentCRF", "statement": "AlignmentCRF never returns a partition: the code calls semiring.one_, which no semiring of the library defines; and the local flag never reaches the Alignment object (it is passed as sparse_rounds).", "quantifier": "every semiring class of the library, every input tensor, every option", "why_tests_cant": "the alignment test is disabled; the claim is about every input and class", "anchors": ["torch_struct/alignment.py:Alignment._dp_scan", "torch_struct/distributions.py:AlignmentCRF._struct"]}
{"id": "C44", "title": "Which distributions support which queries", "statement": "kl and cross_entropy (which pass a list of two tensors) are answered by LinearChainCRF and TreeCRF and raise on SemiMarkovCRF, DependencyCRF and SentCFG.", "quantifier": "every pair of potentials, every structure family", "why_tests_cant": "the tests only draw LinearChainCRF", "anchors": ["torch_struct/distributions.py:StructDistribution.kl", "torch_struct/semimarkov.py:SemiMarkov.logpartition", "torch_struct/deptree.py:DepTree.logpartition", "torch_struct/helpers.py:_Struct._get_dimension"]}
{"id": "C45", "title": "Length arguments", "statement": "Requests whose longest length is not N, or whose transition tensor is not square, are rejected with an assertion by LinearChain and SemiMarkov; TreeCRF accepts length 0 and then answers for the full sentence (negative index).", "quantifier": "every lengths vector and every shape", "why_tests_cant": "all lengths vectors", "anchors": ["torch_struct/linearchain.py:LinearChain._check_potentials", "torch_struct/semimarkov.py:SemiMarkov._check_potentials", "torch_struct/cky_crf.py:CKY_CRF.logpartition"]}
{"id": "C46", "title": "Law of autoregressive samples", "statement": "Autoregressive.sample draws independent sequences, for every sample and batch element, from the distribution whose probability of y is exp(log_prob(y)); with normalize=False this fails because sample still normalises the logits and log_prob does not.", "quantifier": "every autoregressive model, every number of samples, n_length, n_classes, batch size", "why_tests_cant": "a statement about the joint law of the draws; a frequency test checks one model and one marginal", "anchors": ["torch_struct/autoregressive.py:Autoregressive.sample", "torch_struct/autoregressive.py:Autoregressive.log_prob"]}
{"id": "C47", "title": "greedy_tempmax is randomised by its temperature", "statement": "greedy_tempmax(alpha) passes alpha in the position of the gumbel flag, so for every alpha other than 0 the search adds Gumbel noise: its score is not a function of the model and alpha, and for every run there is noise giving a strictly higher score.", "quantifier": "every normalised model with at least two classes, every alpha, every noise", "why_tests_cant": "the test of greedy_tempmax only checks that it runs", "anchors": ["torch_struct/autoregressive.py:Autoregressive.greedy_tempmax", "torch_struct/autoregressive.py:Autoregressive._beam_search"]}
{"id": "C48", "title": "Attributes of the semirings", "statement": "Every attribute of a semiring that the chain, segment, span, grammar and arc algorithms read is found by Python's lookup on every concrete semiring class of the library, also after any nesting of the checkpoint wrappers, and never resolves to the abstract sum that raises.", "quantifier": "every class, every nesting of CheckpointSemiring and CheckpointShardSemiring, every algorithm", "why_tests_cant": "tests instantiate a few classes, the wrappers nest without bound", "anchors": ["torch_struct/semirings/semirings.py:Semiring", "torch_struct/semirings/checkpoint.py:CheckpointSemiring", "torch_struct/semirings/sample.py", "torch_struct/semirings/fast_semirings.py"]}
{"id": "C49", "title": "The training objective is convex and monotone", "statement": "The log-partition and the max of every row are monotone and convex in the potentials, so the negative log-likelihood of any event is convex; the gradient is a global lower tangent; the max is a lower bound of the log-partition, which exceeds it by at most the log of the number of structures (plus the leak of the finite zero).", "quantifier": "every call, every pair of potentials (no range restriction for convexity and monotonicity), every mixture weight", "why_tests_cant": "inequalities over all pairs of real potentials", "anchors": ["torch_struct/distributions.py:StructDistribution.partition", "torch_struct/distributions.py:StructDistribution.max", "torch_struct/distributions.py:StructDistribution.log_prob"]}
{"id": "C50", "title": "Second derivatives are covariances", "statement": "The derivative of the marginal of part e with respect to the potential of part f is the covariance of the indicator counts of e and f under the distribution, up to a bound given by the finite zero.", "quantifier": "every call, every pair of parts, all bounded potentials", "why_tests_cant": "a second derivative for all potentials", "anchors": ["torch_struct/distributions.py:StructDistribution.marginals", "torch_struct/helpers.py:_Struct.marginals"]}
{"id": "C51", "title": "Potentials of minus infinity forbid parts", "statement": "With some potentials set to minus infinity the partition and the max are those of the structures that avoid them (exactly for TreeCRF and DependencyCRF, up to the leak of the finite zero otherwise), and for classes without the finite zero they are minus infinity iff nothing is allowed. Two things a user may expect are false: a LinearChainCRF partition is never minus infinity, even if everything is masked; and log_prob of any allowed structure is NaN as soon as one potential of the row is masked.", "quantifier": "every call, every mask, all bounded finite potentials", "why_tests_cant": "all masks at once; the NaN only shows for events computed on masked potentials, which no test does", "anchors": ["torch_struct/linearchain.py:LinearChain.logpartition", "torch_struct/helpers.py:_Struct.score", "torch_struct/distributions.py:StructDistribution.log_prob"]}
{"id": "C52", "title": "Reparametrisations that do not change the distribution", "statement": "Adding to the potentials an amount that sums to the same constant K over every structure moves partition and max by K and leaves marginals, argmax and log-probabilities unchanged: a score per step or a unary score moved between adjacent edges of a chain, a score per covered position of a segmentation, a score per word and per bracket of a tree, a score per modifier word of a dependency tree.", "quantifier": "every call, every reparametrisation, every length", "why_tests_cant": "all potentials and all shifts", "anchors": ["torch_struct/distributions.py:StructDistribution", "torch_struct/linearchain.py:LinearChain.logpartition", "torch_struct/semimarkov.py:SemiMarkov.logpartition", "torch_struct/cky_crf.py:CKY_CRF.logpartition", "torch_struct/deptree.py:DepTree.logpartition"]}
{"id": "C53", "title": "Backward of sharded checkpointing", "statement": "The backward pass of CheckpointShardSemiring.matmul returns the same gradients as the backward pass of the plain matmul, whatever the shard size, and for LogSemiring and StdSemiring these are the derivatives of the product. It relies on each operand having a dimension of size 1 other than the last (the leading semiring dimension, for classes with one float per cell); without one the returned gradient has the wrong shape.", "quantifier": "every pair of operands, every broadcast, every shard size, every incoming gradient", "why_tests_cant": "gradients for all shapes, shard sizes and values; the tests compare one product", "anchors": ["torch_struct/semirings/checkpoint.py:CheckpointShardSemiring", "torch_struct/semirings/checkpoint.py:unaccumulate_", "torch_struct/semirings/checkpoint.py:ones"]}
{"id": "C54", "title": "Trees as graphs", "statement": "CKY.to_networkx turns a batch of tree charts into one graph: one node per bracket with its label and sentence, an edge from each of its two children to every inner bracket, indices that locate the root of every tree, and levels (topo) that partition the nodes so that every edge goes to a strictly higher level, whatever order argsort chooses among brackets of equal width. Charts with two labels on one span are not rejected: the second label takes the first as both its children.", "quantifier": "every batch of label trees (optionally followed by padding leaves), every argsort", "why_tests_cant": "all trees and all unstable sorts; the function has no test", "anchors": ["torch_struct/cky.py:CKY.to_networkx"]}
{"id": "C55", "title": "The genbmm semirings", "statement": "FastLogSemiring, FastMaxSemiring and FastSampleSemiring compute the same matrix products as their plain classes, for all broadcast batch shapes, provided the extension computes a batched product. Without the extension every product raises; operands of different rank are rejected although the plain classes accept them.", "quantifier": "every pair of operands, every broadcast, every implementation of the extension meeting its contract", "why_tests_cant": "all shapes; the tests skip when genbmm is missing", "anchors": ["torch_struct/semirings/fast_semirings.py:broadcast", "torch_struct/semirings/fast_semirings.py:FastLogSemiring", "torch_struct/semirings/fast_semirings.py:FastMaxSemiring", "torch_struct/semirings/fast_semirings.py:FastSampleSemiring"]}
{"id": "C56", "title": "Queries agree with each other", "statement": "The queries of one distribution, computed by different semirings and backward passes, are consistent: log_prob(argmax) = max - partition and no structure has a larger log_prob; entropy = partition - <marginals, potentials>, and it lies between 0 and the log of the number of structures; the first value of kmax(k) is max, and kmax(k) is a prefix of kmax(k') for k <= k'; expectations under sampling are averages weighted by exp(log_prob), and the frequency of a part in samples is its marginal.", "quantifier": "every call, all potentials, all k, all bounded functions of a sample", "why_tests_cant": "relations between all outputs at once, with the exact law of samples instead of an empirical mean", "anchors": ["torch_struct/distributions.py:StructDistribution.log_prob", "torch_struct/distributions.py:StructDistribution.entropy", "torch_struct/distributions.py:StructDistribution.kmax", "torch_struct/distributions.py:StructDistribution.sample", "torch_struct/distributions.py:StructDistribution.marginals"]}
{"id": "C57", "title": "Rounding errors stay small", "statement": "Computed with rounded operations instead of real numbers, the partition and max of every row are within (number of operations on one derivation) x (error of one operation) of the true values, argmax still returns one structure whose score is within twice that of the best, count is within a relative error, every marginal is within a relative error plus a tiny absolute one, and the law of a sample is within a bound in total variation. log_prob of a structure is within the error of its score (one rounding per product and per addition on the longest chain, in whatever order torch adds), the error of the partition and one more rounding. torch's own logsumexp (subtract the max, exponentiate, add, take the log) and its backward pass exp(x - result) meet the assumptions made on one operation, with error 17 n u for n summands. The bounds grow with the depth of the scan, not with the number of structures.", "quantifier": "every call, all bounded potentials, every rounding function with relative error u (binary32 is one), every order of errors", "why_tests_cant": "rounding errors of all inputs at once; tests compare with a loose tolerance on small inputs", "anchors": ["torch_struct/semirings/semirings.py:_BaseLog", "torch_struct/semirings/semirings.py:LogSemiring", "torch_struct/semirings/semirings.py:MaxSemiring", "torch_struct/semirings/semirings.py:StdSemiring", "torch_struct/distributions.py:StructDistribution"]}
{"id": "C58", "title": "The test-suite's enumerations agree with the dynamic programs at every size", "statement": "The brute-force enumerations against which the test-suite compares (sequences, segmentations, labelled trees, grammar parses, dependency trees filtered by _is_spanning, _is_projective and _is_multi_root) list every structure of the specification exactly once with its score. Hence the comparisons the tests make on two to four words hold for every size, batch row and potential: sum in any semiring, log-partition, max, count, k best, entropy, labelled dependency trees, HSMM. The comparison commented out in test_non_proj is exact without smoothing; with the smoothing constant of deptree_part it is off, always upwards, by at most n ln(1 + eps e^B).", "quantifier": "every size, every batch row, all potentials, every semiring", "why_tests_cant": "the tests sample sizes two to four; that the oracle itself is right is not tested at all", "anchors": ["tests/extensions.py:LinearChainTest.enumerate", "tests/extensions.py:SemiMarkovTest.enumerate", "tests/extensions.py:DepTreeTest.enumerate", "tests/extensions.py:CKY_CRFTest.enumerate", "tests/extensions.py:CKYTest.enumerate", "tests/extensions.py:_is_spanning", "tests/extensions.py:_is_projective", "tests/test_algorithms.py:test_non_proj", "torch_struct/deptree.py:deptree_part"]}
{"id": "C59", "title": "Symmetries", "statement": "Renaming the labels of the potentials, or reading the input from the right, changes nothing but the names of the entries: every semiring's total, partition, max, entropy, marginals and (when unique) argmax of the renamed model are those of the original under the renaming. This holds for labels of LinearChainCRF, SemiMarkovCRF, TreeCRF and labelled DependencyCRF, for nonterminals and preterminals of SentCFG, and for reversal in all five classes, per batch row and its own length. Two classes that describe the same structures agree in the same sense: LinearChainCRF and SemiMarkovCRF with segments of width one, SemiMarkovCRF with different maximal widths at least the sequence length, DependencyCRF without labels and with one label.", "quantifier": "every call, every batch row and length, every permutation of labels, all potentials, every semiring", "why_tests_cant": "all permutations and inputs; the implementations are not symmetric (scans run left to right, dependency charts treat left and right arcs separately)", "anchors": ["torch_struct/linearchain.py:LinearChain.logpartition", "torch_struct/semimarkov.py:SemiMarkov.logpartition", "torch_struct/cky_crf.py:CKY_CRF.logpartition", "torch_struct/cky.py:CKY.logpartition", "torch_struct/deptree.py:DepTree.logpartition"]}
{"id": "C60", "title": "NeuralCFG with SentCFG gives sentence probabilities", "statement": "The tensors produced by NeuralCFG form a proper probabilistic grammar (words given a preterminal, pairs of symbols given a nonterminal, and root symbols each add up to one, although the rules are normalised after flattening). SentCFG's partition on them is the log of the total probability of the derivations that yield the sentence, for every row and length, independent of padding. Hence the probabilities of distinct sentences of any lengths add up to at most one, and summing the likelihood over all sentences of one length leaves the probability of the rules alone.", "quantifier": "every network (arbitrary embeddings and hidden vectors), vocabulary, batch, lengths and sentences", "why_tests_cant": "a statement about all sentences at once; the example network has no test", "anchors": ["examples/networks/NeuralCFG.py:NeuralCFG.forward", "torch_struct/cky.py:CKY.logpartition", "torch_struct/distributions.py:SentCFG"]}
{"id": "C61", "title": "The supervised training examples", "statement": "For the tagger notebook: log_prob of the gold tags is the log-probability under the model that scores every tag and every transition (first tag included), its derivative by a score of the network is gold indicator minus posterior probability of the tag, by a transition weight gold count minus expected count; the reported error is the number of wrong tags after the first position of an optimal sequence, the reported total the number of such positions. For bert-dep.py: log_prob of a projective gold tree is its log-probability, the reported error counts the words with a wrong head in an optimal tree and the total counts the words, for padded batches of any lengths. In general, for a parameter that enters many potentials, the gradient of the log-likelihood is the value of its feature on the gold structure minus the expected value. The masks of bert-dep.py remove the scores of the last word: trees that differ only in its head get equal probability. For a crossing gold tree log_prob is unbounded.", "quantifier": "every batch, lengths, number of tags, gold sequences and trees, all network outputs, all choices of torch.max", "why_tests_cant": "gradients and error counts for all inputs; the examples have no tests and need data and a GPU", "anchors": ["notebooks/BertTagger.ipynb:Model.forward", "notebooks/BertTagger.ipynb:validate", "examples/bert-dep.py:validate", "examples/bert-dep.py:train", "torch_struct/distributions.py:StructDistribution.log_prob", "torch_struct/linearchain.py:LinearChain.to_parts", "torch_struct/deptree.py:DepTree.to_parts"]}
{"id": "C62", "title": "Self-critical training follows the gradient of the expected reward", "statement": "SelfCritical.forward together with the policy objective of examples/tree.py: averaged over the draws of the K samples, the gradient of mean(rewards * log_prob(samples)) along any direction of the parameters is the derivative of the mean expected reward of the model, for every reward function; subtracting the reward of the argmax changes nothing on average; the reported total has the expected reward as its mean. With the entropy bonus, the expected gradient is that of expected reward minus weighted entropy. Training builds the distribution without lengths: on a sentence shorter than the batch every sampled tree brackets the padding, whereas under the lengths used in validation no tree does.", "quantifier": "every distribution class that samples, every batch, lengths, K, potentials, direction and reward", "why_tests_cant": "an expectation over all random draws of a gradient; a test sees single draws", "anchors": ["examples/rl.py:SelfCritical.forward", "examples/tree.py:run_train", "examples/tree.py:valid_sup", "torch_struct/distributions.py:StructDistribution.sample", "torch_struct/distributions.py:StructDistribution.log_prob", "torch_struct/distributions.py:StructDistribution.entropy"]}
{"id": "C63", "title": "The gradient through gumbel_crf", "statement": "Differentiating a loss on the tensor returned by gumbel_crf: for every noise, temperature, loss and direction of the potentials, the gradient is the sum, over the sum nodes of the drawn derivation, of the loss drawn below the node times the derivative of the softmax probability of the child it took, where the forward values move by what a fresh draw finds below each child; with expectations in place of the fresh draw it is the derivative of a relaxed objective. It vanishes along every direction that changes all structures by the same amount. Two expectations of a user fail: a loss that is constant over all draws gets a gradient that is never zero (the Jacobian product is restricted to the entry that was taken), and the gradient is not a function of the returned tensor (the backward pass draws again).", "quantifier": "every distribution class, batch, lengths, potentials, loss, noise and temperature", "why_tests_cant": "a statement about every loss, direction and noise; the returned gradients are random", "anchors": ["torch_struct/semirings/sample.py:GumbelCRFSemiring", "torch_struct/distributions.py:StructDistribution.gumbel_crf", "torch_struct/helpers.py:_Struct.marginals"]}
{"id": "C64", "title": "Marginals with SparseMaxSemiring", "statement": "Run with SparseMaxSemiring, the marginals of every class are the part counts averaged under a probability distribution over the valid structures; every structure with weight scores within three times the number of sums on a derivation of the best one, so parts of worse structures get exactly zero, and a structure ahead of all others by more than that is returned exactly. The value lies between the best score minus twice that number and the best score. Two expectations fail: a model with one structure does not get its score as value, and the unique best structure can get weight zero.", "quantifier": "every class, batch, lengths, potentials and row", "why_tests_cant": "exact zeros and a distribution over all structures, for all potentials", "anchors": ["torch_struct/semirings/sparse_max.py:SparseMaxSemiring", "torch_struct/semirings/sparse_max.py:_SimplexProject", "torch_struct/helpers.py:_Struct.marginals"]}
{"id": "C65", "title": "log_prob of a tensor of events", "statement": "log_prob accepts a tensor of events with any number of sample dimensions before the batch dimension and returns one number per sample and row: the score of that event under that row minus the row's log-partition; hence the log-probability for events of structures. A batch dimension of size one (of the events or of the potentials) broadcasts; other mismatches raise, and so does a sample shape with a zero. An event passed without batch dimension is not scored per row: the scores of all rows are added up, and the result can be a log-probability above zero.", "quantifier": "every class with tensor events, all shapes, batch sizes, potentials and event tensors", "why_tests_cant": "index arithmetic over all shapes; the tests only use a single shape", "anchors": ["torch_struct/distributions.py:StructDistribution.log_prob", "torch_struct/helpers.py:_Struct.score"]}
{"id": "C66", "title": "The documented parallel time", "statement": "The number of operations of the forward pass that have to wait for each other is, exactly: 2 ceil(log2(N-1)) + 3 for LinearChainCRF and SemiMarkovCRF, whatever the lengths, labels and widths; 3n - 2 for a TreeCRF sentence of n words, 5n - 3 for SentCFG, 5n for multi-root DependencyCRF and 5n - 2 for single-root ones (4 for one labelled word), whatever the number of labels and symbols. The alternative semi-Markov program _dp_standard needs 3n - 2.", "quantifier": "every class, batch, lengths, number of labels, widths and symbols", "why_tests_cant": "a statement about the growth with the sentence length; tests time single sizes", "anchors": ["torch_struct/distributions.py:LinearChainCRF", "torch_struct/distributions.py:SemiMarkovCRF", "torch_struct/distributions.py:TreeCRF", "torch_struct/distributions.py:SentCFG", "torch_struct/distributions.py:DependencyCRF", "torch_struct/linearchain.py:LinearChain.logpartition", "torch_struct/semimarkov.py:SemiMarkov._dp_standard"]}
{"id": "C67", "title": "ListOps trees from file to graph", "statement": "Reading a bracketed line gives its words and its constituents, for trees of any arity and depth; the reader raises exactly when a prefix closes more brackets than it opens. The batch tensor is as wide as the longest sentence and has a one exactly at the constituents, labelled 1 + word number or 0; printing a row gives the line back followed by the padding words, and the row's graph is the graph of the tree. expand_spans puts the words of sentence b under each of the K sampled trees of sentence b, words behind the end become loose leaves, and the graph of the result is that of these trees. Brackets around a single part break the round trip, and the table of valid_show has gold and predicted trees under each other's headings.", "quantifier": "every batch of trees, vocabulary, number of samples, lengths and argsort order", "why_tests_cant": "all trees of all arities, depths and batch compositions; there is no test of this code", "anchors": ["examples/data/trees.py:ListOpsDataset", "examples/data/trees.py:ListOpsDataset.tree_field", "examples/tree.py:expand_spans", "examples/tree.py:valid_show", "torch_struct/cky.py:CKY.to_networkx"]}
{"id": "C68", "title": "The Tree-LSTM reward", "statement": "On the graph of to_networkx, the class scores of sentence r are those of the Tree-LSTM recursion over its tree, with the cell of each word counted twice because run propagates twice; the labels of inner nodes play no role. The reward of sample k of sentence b in tree.py is minus the score of the right class for that sample's tree over that sentence's words: it does not depend on other samples, other sentences, the order that argsort picks, or padding. It differs from the plain recursion.", "quantifier": "every tree, batch, number of samples, parameters and argsort order", "why_tests_cant": "equality of a level-by-level graph computation with a recursion over all trees; no test runs this code", "anchors": ["examples/networks/TreeLSTM.py:run", "examples/networks/TreeLSTM.py:TreeLSTM.forward", "examples/networks/TreeLSTM.py:TreeLSTMCell", "examples/tree.py:run_train"]}
{"id": "C69", "title": "Words and word pieces", "statement": "Reading a CoNLL file gives words and heads of every sentence, and one more example without words when the file ends in a blank line. If every word is covered by its word pieces, token_pre and token_post give a mapper that is one exactly at one token per word (and at [CLS] and [SEP]), so the pooled vector of word w of sentence b is the vector of one token of that sentence and zero past its end, whatever the other sentences in the batch. That token is the first piece of the word if all further pieces of the earlier words are continuations; in general it is too early by the number of their further pieces that are not. So a word split at punctuation shifts all later words of its sentence, and an unknown word longer than [UNK] gives up the whole sentence.", "quantifier": "every batch of sentences and every cut of the words into pieces", "why_tests_cant": "a statement about all tokenizations and batch compositions; no test runs this code", "anchors": ["examples/data/trees.py:ConllXDataset", "examples/data/data.py:token_pre", "examples/data/data.py:token_post", "examples/bert-dep.py:Model.forward"]}
{"id": "C70", "title": "Span scores of SpanLSTM", "statement": "The vector of span (i, j) is the difference of the left-to-right states after words j+1 and i, beside the difference of the right-to-left states at words i-1 and j; vectors of neighbouring spans add up. Sentences influence each other only through the common width: the same row of words in two batches of the same width gets the same scores, and TreeCRF the same value in every semiring. Two expectations fail: the score of the whole row does not depend on the words, and padding a sentence changes the probabilities of its trees.", "quantifier": "every model, batch, width, words, lengths and semiring", "why_tests_cant": "quantifies over all networks, sentences and batch compositions; no test runs this code", "anchors": ["examples/networks/SpanLSTM.py:SpanLSTM.forward", "examples/networks/SpanLSTM.py:Res", "torch_struct/distributions.py:TreeCRF"]}
{"id": "C71", "title": "What kl and cross_entropy read of the other distribution", "statement": "In p.kl(q) and p.cross_entropy(q) the structures are those of p: the value of row b compares p with the distribution over p's structures that has q's potentials. q's potentials may have size one in any dimension and are then shared along it, so one reference distribution can be compared with a whole batch; any other difference of shape raises. q's lengths are ignored, so two distributions over different lengths can have divergence zero.", "quantifier": "every pair of LinearChainCRF or TreeCRF distributions, all shapes, lengths and potentials", "why_tests_cant": "quantifies over all pairs of shapes and lengths; the tests compare two distributions of equal shape and lengths", "anchors": ["torch_struct/distributions.py:StructDistribution.kl", "torch_struct/distributions.py:StructDistribution.cross_entropy", "torch_struct/semirings/semirings.py:KLDivergenceSemiring", "torch_struct/semirings/semirings.py:CrossEntropySemiring"]}
{"id": "C72", "title": "Gradients of entropy, cross_entropy and kl", "statement": "The derivative of entropy in the potential of part f is minus the covariance of the score with the number of uses of f. The derivative of p.cross_entropy(q) and p.kl(q) in q's potential is the expected number of uses under q minus that under p, and exactly zero when the potentials are equal; in p's potential it is minus the covariance, under p, of q's score with the uses, and for kl the covariance of the difference of the scores. Entropy is stationary where all structures have the same score. All up to a bound given by the finite zero, which is zero for TreeCRF and DependencyCRF.", "quantifier": "every call, part and row, all bounded potentials", "why_tests_cant": "a derivative for all potentials; the tests only check values of entropy and kl", "anchors": ["torch_struct/distributions.py:StructDistribution.entropy", "torch_struct/distributions.py:StructDistribution.cross_entropy", "torch_struct/distributions.py:StructDistribution.kl"]}
{"id": "C73", "title": "What validate_args=True checks", "statement": "With validate_args=True the chain, semi-Markov, tree, HMM and dependency distributions are built exactly when no potential is NaN and lengths are given and none is negative; leaving lengths out raises TypeError. SentCFG and AlignmentCRF cannot be built with the flag at all. NonProjectiveDependencyCRF only looks for NaN. An accepted object is the same as without the flag, and a refused DependencyCRF does not touch DepTree.multiroot. Lengths larger than the width of the potentials are not noticed.", "quantifier": "every class and all arguments", "why_tests_cant": "quantifies over all potentials and lengths; no test passes validate_args", "anchors": ["torch_struct/distributions.py:StructDistribution.__init__", "torch_struct/distributions.py:AlignmentCRF", "torch_struct/distributions.py:SentCFG", "torch_struct/distributions.py:NonProjectiveDependencyCRF", "torch_struct/distributions.py:DependencyCRF"]}
{"id": "C74", "title": "The split points of the unsupervised grammar notebook", "statement": "On the span chart of any batch of parse trees, split(spans) of Unsupervised_CFG.ipynb returns one dictionary per sentence whose keys are exactly the constituents of two or more words. The value at (i, j) is the last word of the widest constituent starting at i, because line 226 stores the loop variable k instead of k_final. It is therefore never the split point of the constituent, and for the whole sentence it is always the last word. Storing k_final gives the split point of every constituent.", "quantifier": "every batch of trees of every size and every labelling", "why_tests_cant": "nothing tests the notebooks; the claim is about every tree", "anchors": ["notebooks/Unsupervised_CFG.ipynb:split"]}
{"id": "C75", "title": "Queries do not write into the caller's tensors, and which of them they mark", "statement": "Whatever a query does, whether it returns or raises, no tensor that existed before the call has other contents or memory afterwards, and a returned result shares no memory with older tensors. Chain, semi-Markov and span tree queries set requires_grad on the caller's potentials (kl and cross_entropy on those of both distributions); SentCFG only on rules; count, DependencyCRF and NonProjectiveDependencyCRF on none. Conversions between events and sequences mark nothing and return new tensors, except for TreeCRF, which returns its argument itself. The in-place operations of sample.py, sparse_max.py and checkpoint.py write only into what they allocated.", "quantifier": "every class and query, all sizes, branches and rounds of loops, and every point at which an exception may leave the call", "why_tests_cant": "aliasing and in-place writes on all paths, also those cut short by exceptions; a test sees one path and usually reads only the result", "anchors": ["torch_struct/helpers.py:_Struct._get_dimension", "torch_struct/helpers.py:_Struct.to_parts", "torch_struct/cky.py:CKY.logpartition", "torch_struct/deptree.py:convert", "torch_struct/deptree.py:deptree_part", "torch_struct/semirings/sample.py:_MultiSampledLogSumExp", "torch_struct/semirings/checkpoint.py:unaccumulate_"]}
{"id": "C76", "title": "The span charts of SentCFG", "statement": "Entry [b, w, i, x] of the span chart that SentCFG.marginals returns is the probability that the parse of sentence b has a constituent x over the w + 2 words starting at word i, up to a bound given by the finite zero; entries of spans that reach past the sentence are exactly 0, and the chart adds up to the number of words minus one. For argmax the chart is the 0/1 chart of one best parse, the same parse that the term, rule and root tensors count. For topk slice j marks the constituents of the j-th best parse, in the order of the values of kmax.", "quantifier": "every batch, length, grammar size and bounded potentials, every recorded graph, every choice of torch.max and torch.topk between equal entries, every enumeration of the parses", "why_tests_cant": "probabilities and best parses over all parses of all lengths; the tests only compare the rule counts and the value", "anchors": ["torch_struct/cky.py:CKY.marginals", "torch_struct/cky.py:CKY.logpartition", "torch_struct/distributions.py:SentCFG"]}
{"id": "C77", "title": "Entropy, cross_entropy and kl with forbidden parts", "statement": "When a potential is minus infinity and the part belongs to some structure of the row, entropy is NaN, and so is p.kl(q) when p forbids the part, although the entropy of the allowed structures is a real number. p.cross_entropy(q) is NaN when both forbid the same part. When only q forbids parts, both divergences of a chain are plus infinity, as they should be; for a TreeCRF they are plus infinity while every span of the sentence keeps a label and NaN as soon as a span loses all of them. When only p forbids labels and every span keeps one, the cross entropy of a TreeCRF is the exact cross entropy of the allowed trees. Without forbidden parts the queries have their usual values.", "quantifier": "every valid call, row, mask and potentials", "why_tests_cant": "NaN or not for every mask; no test uses infinite potentials with these queries", "anchors": ["torch_struct/semirings/semirings.py:EntropySemiring", "torch_struct/semirings/semirings.py:KLDivergenceSemiring", "torch_struct/semirings/semirings.py:CrossEntropySemiring", "torch_struct/distributions.py:StructDistribution.entropy", "torch_struct/distributions.py:StructDistribution.kl"]}
{"id": "C78", "title": "Marginals and argmax with forbidden parts", "statement": "With potentials of minus infinity, the marginal of a part is NaN exactly when the part is read on the way to a recorded logsumexp whose value is minus infinity (autograd also visits table cells that the result does not use, with gradient 0, and 0 * NaN is NaN); otherwise it is the probability of the part given that no forbidden part is used, up to the leak of the finite zero. A chain never gets NaN, whatever is forbidden, as long as some sequence is allowed. A TreeCRF gives the exact conditional marginals when every pair of positions keeps a label; forbidding all labels of a span makes the marginals of that span NaN, and masking the spans that end in a padding word makes the marginals of every span before it NaN, although the log-partition is right. argmax is always the event of a best allowed structure. The log-partition of the masked potentials minus the unmasked one is the log-probability of avoiding the forbidden parts.", "quantifier": "every valid call, row, mask, bounded potentials, recorded graph and choice of torch.max between equal entries", "why_tests_cant": "NaN or not for every mask, including cells that do not feed the result; no test differentiates infinite potentials", "anchors": ["torch_struct/helpers.py:_Struct.marginals", "torch_struct/distributions.py:StructDistribution.marginals", "torch_struct/distributions.py:StructDistribution.argmax", "torch_struct/cky_crf.py:CKY_CRF.logpartition", "torch_struct/semirings/semirings.py:LogSemiring"]}
{"id": "C79", "title": "Samples with forbidden parts", "statement": "With potentials of minus infinity, sample raises RuntimeError exactly when some recorded sum of some row has only arguments of minus infinity (its softmax is NaN, which torch.multinomial refuses). If it does not raise, the samples and the rows are independent and each row has the law of the model given that no forbidden part is used, up to the leak of the finite zero, and every sample is an allowed structure. Sampling a chain never raises, whatever is forbidden. A TreeCRF gives the exact conditional law when every pair of positions keeps a label, and raises for the whole batch as soon as one pair of one row has lost all labels, even a pair below the diagonal or beyond the length of the row, which belongs to no tree.", "quantifier": "every valid call, mask, bounded potentials, number of samples, recorded graph, test function of the samples and outcome of the draws", "why_tests_cant": "a distribution over all structures and all masks; no test samples from infinite potentials", "anchors": ["torch_struct/distributions.py:StructDistribution.sample", "torch_struct/semirings/sample.py:_MultiSampledLogSumExp", "torch_struct/cky_crf.py:CKY_CRF.logpartition"]}
{"id": "C80", "title": "kmax and topk with forbidden parts", "statement": "With potentials of minus infinity, kmax(k) lists in its first slots the scores of the best allowed structures, best first and without repetition, and topk gives in each of these slots the 0/1 indicator of that structure, so no forbidden part is selected there. The slots beyond the number of allowed structures hold minus infinity or a number at most about -1e5. With k = 1, kmax is max. With k >= 2 the best score is never minus infinity: when every structure of a tree or dependency row is forbidden, max answers minus infinity and kmax a finite number near -1e5 or below.", "quantifier": "every valid call, k, mask, potentials small against 1e5, recorded graph and answer of torch.topk (ties in any order)", "why_tests_cant": "a claim about all structures, all masks and all tie-breaks; no test runs KMaxSemiring on infinite potentials", "anchors": ["torch_struct/distributions.py:StructDistribution.kmax", "torch_struct/distributions.py:StructDistribution.topk", "torch_struct/semirings/semirings.py:KMaxSemiring"]}
{"id": "C81", "title": "Dependency trees and segmentations with forbidden parts", "statement": "DependencyCRF (without labels) with potentials of minus infinity: sampling raises RuntimeError if and only if some row forbids an arc between two neighbouring words or the root arc of its first word, and the marginal of such an arc is NaN, although trees without it may exist. With labels the same holds as soon as all labels of any one arc are forbidden. In every other row the marginals are exactly the conditional probabilities given that no forbidden arc is used, forbidden arcs have marginal 0, and the samples have exactly the conditional law. SemiMarkovCRF has no such restriction: whatever is forbidden, sampling never raises and the marginals are the conditional probabilities up to the leak of the finite zero.", "quantifier": "every valid call, single- and multi-root, mask, batch, lengths, number of samples and recorded graph that holds the values the code computes", "why_tests_cant": "which masks are harmless depends on the cells of the chart for every sentence length; no test masks arcs or segments", "anchors": ["torch_struct/deptree.py:DepTree.logpartition", "torch_struct/semimarkov.py:SemiMarkov.logpartition", "torch_struct/helpers.py:_Struct.marginals", "torch_struct/semirings/sample.py:_MultiSampledLogSumExp"]}
{"id": "C82", "title": "Grammars with forbidden rules, words or roots", "statement": "SentCFG with potentials of minus infinity: a row has a NaN marginal if and only if all its roots are forbidden, or for some nonterminal and some two neighbouring positions of the tensor (padding included) no rule is left in one of the four blocks nonterminal-nonterminal, nonterminal-preterminal, preterminal-nonterminal and preterminal-preterminal, counting a preterminal as unusable at a word that forbids it. The marginals of the rules of that block, and of the words it reads, are then NaN, although other rules allow a parse. In every other row with an allowed parse the marginals are the expected uses given that nothing forbidden is used, up to the leak of the finite zero.", "quantifier": "every valid call, mask, batch, lengths and recorded graph that holds the values the code computes", "why_tests_cant": "a grammar that simply lacks rules of one kind triggers it; the tests only use dense random grammars", "anchors": ["torch_struct/cky.py:CKY.logpartition", "torch_struct/cky.py:CKY.marginals"]}
{"id": "C83", "title": "Non-projective trees with forbidden arcs", "statement": "NonProjectiveDependencyCRF with arc scores of minus infinity. Without smoothing the partition is the log-sum over the allowed trees and the marginals are the arc probabilities given that no forbidden arc is used; if no tree is allowed the partition is -inf and the marginals raise. With any smoothing eps > 0 (the code always uses 1e-5) the partition is -inf, and the marginals raise, if and only if every word is forbidden as a root: a word all of whose heads are forbidden goes unnoticed. Otherwise the partition is strictly above the allowed log-sum, every tree with a forbidden arc and allowed roots adds its smoothed weight, the marginal of a forbidden arc is exactly 0, the heads of a word sum to at most 1 (strictly less if another word may be the root), and to 0 when they are all forbidden.", "quantifier": "every sentence length, both root modes, every mask and score, every eps > 0", "why_tests_cant": "forbidden arcs appear in no test, and a partition off by the smoothing is within the tolerance of any numeric comparison", "anchors": ["torch_struct/deptree.py:deptree_part", "torch_struct/deptree.py:deptree_nonproj", "torch_struct/distributions.py:NonProjectiveDependencyCRF"]}
{"id": "C84", "title": "Non-projective trees: order of the words, shifts, convexity and the effect of smoothing", "statement": "The partition and marginals of NonProjectiveDependencyCRF do not depend on the order of the words: renaming the words renames the marginals and leaves the partition, for any smoothing and any forbidden arcs, although the single-root code singles out row 0 of its matrix. Without smoothing, adding a constant to all head scores of a word moves the partition by it and changes no marginal; with the default smoothing it does change them. The partition is convex and monotone in the scores and monotone in eps. If no arc score is below m, smoothing by eps raises the partition by at most (N-1) ln(1 + eps exp(-m)) and changes every marginal by at most a factor (1 + eps exp(-m))^(N-1) either way.", "quantifier": "every sentence length, both root modes, all scores, every permutation of the words, every eps >= 0", "why_tests_cant": "the size of the smoothing error depends on the scores, so no tolerance chosen in a test covers it; symmetry and convexity quantify over all inputs", "anchors": ["torch_struct/deptree.py:deptree_part", "torch_struct/deptree.py:deptree_nonproj"]}
{"id": "C85", "title": "Hidden Markov and semi-Markov models with impossible events", "statement": "HMM and hsmm accept probabilities that are 0 (log-probabilities of minus infinity). For every observation sequence of positive probability the partition is its log-likelihood, the marginals are the posterior probabilities of the transitions (segments) and never NaN, and argmax is a most probable state sequence, all up to the leak of the finite zero -1e5. For observations of probability 0 the partition is not minus infinity but a finite number of about -1e5. The potentials agree with those of the adapters for finite parameters, and the joint of stochastic parameters with zeros sums to 1.", "quantifier": "all parameters with zeros (positive entries of bounded logarithm), all observations, all batch sizes, lengths >= 2, numbers of states and symbols", "why_tests_cant": "whether a zero probability reaches a value that is minus infinity, and so a NaN gradient, depends on which events are impossible: tests of the repository use only finite parameters", "anchors": ["torch_struct/linearchain.py:LinearChain.hmm", "torch_struct/semimarkov.py:SemiMarkov.hsmm", "torch_struct/distributions.py:HMM"]}
{"id": "C86", "title": "Autoregressive models with forbidden classes", "statement": "A model may forbid classes by logits of minus infinity. Provided every allowed prefix has an allowed continuation: log_prob is the log of the product of conditional probabilities, minus infinity exactly when a class on the sequence is forbidden, and the probabilities sum to 1; greedy_max and beam search return allowed sequences only, with finite scores; the first min(K, number of allowed sequences) beams are distinct with exact scores, the others repeat sequences at 1e5 less; a beam as wide as the number of allowed prefixes is exact; sample never raises and draws each sequence with its probability. That a beam of width at most C^N has no repeats is false here. One dead end (a state without allowed class) in the beam before the last step makes the first score NaN.", "quantifier": "all user models with logits in the reals or minus infinity, all batch sizes, lengths, numbers of classes, beam widths and all tie-breaking of topk", "why_tests_cant": "which candidates outrank the dummy slots at -1e5 and which are minus infinity depends on the model and the history; the repository tests only finite random logits", "anchors": ["torch_struct/autoregressive.py:Autoregressive.log_prob", "torch_struct/autoregressive.py:Autoregressive._beam_search", "torch_struct/autoregressive.py:Autoregressive.sample"]}
{"id": "C87", "title": "The entries of marginals fit together", "statement": "Sums of entries of marginals are probabilities of events of one distribution. LinearChainCRF: each step inside the length sums to 1, and the label of a word between two steps has the same probability read off either step. SemiMarkovCRF: the segments covering a position sum to 1, and at an inner boundary the ending and the starting segments agree on the label. TreeCRF: each word and the whole sentence sum to 1 over labels, all entries to 2n-1, two crossing spans to at most 1. DependencyCRF: each word's column sums to 1, root arcs to 1 unless multiroot, crossing arcs and opposite arcs to at most 1. SentCFG: roots sum to 1, each word's terms to 1, rules to n-1, and every symbol is rewritten as often as it is produced. Exact for TreeCRF and DependencyCRF, up to the finite zero for the others.", "quantifier": "all potentials, shapes, lengths, labels and rows; for the general statement all selections of entries", "why_tests_cant": "tests compare marginals with enumeration at a few small random shapes; the relations link entries computed by different parts of the chart and must hold at every size", "anchors": ["torch_struct/distributions.py:StructDistribution.marginals", "torch_struct/helpers.py:_Struct.marginals"]}
{"id": "C88", "title": "Marginals with forbidden parts fit together", "statement": "With potentials of minus infinity, every relation that all allowed structures satisfy holds between sums of entries of marginals, as long as the entries summed are numbers and one structure is allowed; entries of forbidden parts add nothing, so the allowed entries carry the whole sum. LinearChainCRF and SemiMarkovCRF: steps and covered positions sum to 1 and neighbours agree, whatever is forbidden. TreeCRF: words, sentence, total and crossing spans as without mask. DependencyCRF: each word's allowed heads sum to 1 if no critical arc is forbidden. SentCFG: roots, words, rules and the balance of each symbol, if every block of rules keeps a rule.", "quantifier": "all potentials in the reals or minus infinity, all shapes, lengths, recorded graphs, rows and selections of entries", "why_tests_cant": "masks are not tested in the repository at all; the sums involve entries reached through different recorded nodes, some of which may be NaN", "anchors": ["torch_struct/distributions.py:StructDistribution.marginals", "torch_struct/helpers.py:_Struct.marginals"]}
{"id": "C89", "title": "Temperature", "statement": "Multiplying all potentials by a factor t (an inverse temperature): max is multiplied by t; for t > 0 argmax still returns a best structure of the original potentials; the log-partition over t exceeds the maximum by at most ln(number of structures) / t; if one structure leads by a gap, every marginal is within (uses bound) * (number of structures - 1) * exp(-t gap) of the use of that structure; the entropy never rises and the expected score (marginals times potentials) never falls when t grows; at t = 0 the log-partition and the entropy are the log of the number of structures and each marginal is the share of uses among all structures.", "quantifier": "all potentials, factors, gaps, shapes, lengths and rows that have a structure; up to the weight of the finite zero for LinearChain, SemiMarkov and SentCFG, exact for TreeCRF and DependencyCRF", "why_tests_cant": "limits and monotonicity in a real factor cannot be sampled; the rate in the gap and the number of structures is a statement about all structures", "anchors": ["torch_struct/distributions.py:StructDistribution.partition", "torch_struct/distributions.py:StructDistribution.max", "torch_struct/distributions.py:StructDistribution.argmax", "torch_struct/distributions.py:StructDistribution.entropy", "torch_struct/distributions.py:StructDistribution.marginals"]}
{"id": "C90", "title": "Partial annotations: masks and marginals agree", "statement": "exp(partition of the potentials with minus infinity on a set of parts - partition) is the probability that no part of the set is used, and agrees with marginals: it is at least 1 - the sum of the marginals of the set, and equal to it when structures use at most one part of the set; excluding a single part takes away exactly its marginal. If every structure uses exactly one part of a group (the transition at a step, the segment over a position, the label of a word or sentence, the head of a word, the class of a word, the root), excluding the members that contradict an annotation leaves the sum of the marginals of the members that agree with it.", "quantifier": "all potentials, sets of parts, annotations, shapes, lengths and rows that have a structure; exact for TreeCRF and DependencyCRF, up to the weight of the finite zero for LinearChain, SemiMarkov and SentCFG", "why_tests_cant": "the two sides run different code (a forward pass with infinities against a backward pass) over exponentially many structures; no test masks anything", "anchors": ["torch_struct/distributions.py:StructDistribution.partition", "torch_struct/distributions.py:StructDistribution.marginals", "torch_struct/semirings/semirings.py:LogSemiring"]}
{"id": "C91", "title": "The classes agree where they describe the same structures", "statement": "A SemiMarkovCRF whose segments all have width 1 (K = 2) has the partition, max, entropy and marginals of the LinearChainCRF on the entries of width 1. Raising K never lowers partition or max, and changes no answer of a row that is at most K words long. A DependencyCRF with one root has at most the partition and max of the one with any number of roots. The labels of a TreeCRF or of a labelled DependencyCRF can be summed out: partition is that of the unlabelled model on the log-sum-exp over labels (in every semiring: the sum), max that of the unlabelled model on the best labels, and the marginal of a labelled part is the unlabelled marginal times the softmax share of the label, and entropy is that of the unlabelled model plus the label entropies weighted by the unlabelled marginals.", "quantifier": "all potentials, shapes, label counts, lengths and rows; exact for TreeCRF, DependencyCRF and every max, up to the weight of the finite zero for the other queries of LinearChain and SemiMarkov", "why_tests_cant": "every class has its own code and its own test against its own enumeration; no test runs two classes against each other for all potentials and sizes", "anchors": ["torch_struct/semimarkov.py:SemiMarkov.logpartition", "torch_struct/linearchain.py:LinearChain.logpartition", "torch_struct/cky_crf.py:CKY_CRF.logpartition", "torch_struct/deptree.py:DepTree.logpartition"]}
{"id": "C92", "title": "The marginals of a linear chain are a Markov chain", "statement": "For every tag sequence of a LinearChainCRF row with at least two words, the product of the entries of marginals that the sequence uses equals exp(its score - partition), the probability log_prob gives it, times the probabilities of the labels of its inner words read off marginals. So marginals alone determines the probability of every sequence.", "quantifier": "all potentials, shapes, lengths, rows and sequences, up to the weight of the finite zero (at most 1e-28 in the example)", "why_tests_cant": "relates a product of entries of the backward pass to the forward pass for each of exponentially many sequences; no test multiplies marginals", "anchors": ["torch_struct/linearchain.py:LinearChain.logpartition", "torch_struct/distributions.py:StructDistribution.marginals", "torch_struct/distributions.py:StructDistribution.log_prob"]}
