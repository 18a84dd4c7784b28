{
 "claims": [
  {
   "property": "C01",
   "status": "partial",
   "theorems": [
    "C01_likelihood_partial",
    "C01_likelihood_tree",
    "C01_likelihood_refuted",
    "C01_stale_result",
    "C01_exact",
    "C01_fresh_sound",
    "C01_shallower_child_raises"
   ],
   "note": "Proved for every circuit in which all root-to-unit paths have equal length (all trees and layered DAGs), for every leftover store. False in general: bfs_layers is not a topological order on DAGs with shortcut edges (refuted with a witness). C01_exact gives the exact condition for arbitrary circuits: a first query answers if and only if the evaluation order has the children first, and then every query is right; so a circuit never asked before never gives a wrong number (C01_fresh_sound), and it raises as soon as one unit has a child nearer to the root than itself (C01_shallower_child_raises)."
  },
  {
   "property": "C02",
   "status": "partial",
   "theorems": [
    "C02_probability_cdf_partial",
    "C02_probability_cdf_refuted",
    "C02_exact",
    "C02_cdf_exact"
   ],
   "note": "Same guard and same counterexample as C01; C02_exact and C02_cdf_exact give the exact condition for arbitrary circuits."
  },
  {
   "property": "C03",
   "status": "proved",
   "theorems": [
    "C03_range",
    "C03_total",
    "C03_monotone",
    "C03_additive"
   ],
   "note": "For layered circuits (every edge joins consecutive layers) with normalised sums, smooth and decomposable, well-formed leaves, all events of unbounded interval lists / symbol sets."
  },
  {
   "property": "C04",
   "status": "proved",
   "theorems": [
    "C04_interval_pointset",
    "C04_any_cdf"
   ],
   "note": "Leaf probability depends only on the point set of a composite interval up to endpoints of atomless laws."
  },
  {
   "property": "C05",
   "status": "partial",
   "theorems": [
    "C05_cdf_partial",
    "C05_cdf_refuted"
   ],
   "note": "True for circuits whose integer dictionaries are sorted by key; refuted for an unsorted dictionary because IntegerDistribution.cdf stops at the first key above the maximum."
  },
  {
   "property": "C06",
   "status": "proved",
   "theorems": [
    "C06_uniform"
   ],
   "note": "Density, cdf as Riemann integral, total mass, all moments; unbounded intervals/orders/centers."
  },
  {
   "property": "C07",
   "status": "proved",
   "theorems": [
    "C07_truncation"
   ],
   "note": "Also covers Gaussian and truncated Gaussian distributions."
  },
  {
   "property": "C08",
   "status": "partial",
   "theorems": [
    "C08_conditional_probability_partial",
    "C08_returned_number_partial",
    "C08_conditional_probability_refuted",
    "C08_event_returned_partial",
    "C08_event_refuted",
    "C08_event_none_partial",
    "C08_shared_partial",
    "C08_shared_refuted"
   ],
   "note": "Simple events on valid tree-shaped circuits with finite log weights, without isolated points of continuous leaves. For isolated points the claim is false (the density is returned): refuted; the number actually returned is characterised for all simple events. For unions of two or more simple sets the claim is false even for disjoint boxes on the unit square: the sum of the squared probabilities is returned (refuted; characterised when the cleaned circuits keep their root). Circuits with shared units: the number is right whenever conditioning answers (proved), but simplification can leave a sum unit without children, and then it raises (refuted)."
  },
  {
   "property": "C09",
   "status": "partial",
   "theorems": [
    "C09_bayes_partial",
    "C09_bayes_refuted",
    "C09_event_partial",
    "C09_event_refuted",
    "C09_overlap_refuted",
    "C09_shared_refuted"
   ],
   "note": "False in general: the weights of a sum unit are not multiplied by the children's probabilities (refuted on a mixture of two uniforms). Proved for simple sets and for unions of pairwise disjoint simple sets when the children of every sum unit agree on the probability of each simple set and each continuous leaf is cut to one proper interval. The docstring's claim for overlapping simple sets is refuted. With shared units the claim is false even under these guards: simplification takes a shared sum unit away from its other parents."
  },
  {
   "property": "C10",
   "status": "partial",
   "theorems": [
    "C10_concentrated_partial",
    "C10_concentrated_refuted",
    "C10_event_partial",
    "C10_event_refuted"
   ],
   "note": "All valid trees with finite log weights and finite density caps, all simple events of positive probability, isolated points included; unions of pairwise disjoint simple sets under the guards of C09_event_partial. Refuted for a log weight of minus infinity (simplification leaves two roots)."
  },
  {
   "property": "C11",
   "status": "proved",
   "theorems": [
    "C11_log_conditional_keeps",
    "C11_marginal_keeps",
    "C11_histories"
   ],
   "note": "Heap model of units, distributions, dictionaries and circuit objects; all circuits, all events and variable sets, all later histories of calls. A call that raises ends the modelled history."
  },
  {
   "property": "C12",
   "status": "partial",
   "theorems": [
    "C12_marginal_partial",
    "C12_marginal_refuted",
    "C12_shared_refuted"
   ],
   "note": "All valid normalised trees with finite log weights; false when a zero-weight (-inf) edge exists (the marginal circuit loses its root). Also false for circuits with shared sum units (the marginal over all variables changes the distribution)."
  },
  {
   "property": "C13",
   "status": "partial",
   "theorems": [
    "C13_simplify_partial",
    "C13_simplify_refuted"
   ],
   "note": "Proved for tree-shaped circuits of any size with finite log weights; false for shared sum units (witness) and -inf edges."
  },
  {
   "property": "C14",
   "status": "partial",
   "theorems": [
    "C14_alternating_partial",
    "C14_alternating_refuted"
   ],
   "note": "No sum below a sum: proved for all layered circuits incl. sharing. Product half is false (the merge loop of ProductUnit.simplify is a no-op)."
  },
  {
   "property": "C15",
   "status": "partial",
   "theorems": [
    "C15_unique_root_partial",
    "C15_simplify_returns",
    "C15_unique_root_refuted"
   ],
   "note": "Proved for all rooted acyclic circuits with finite log weights; false with a -inf edge (orphaned child)."
  },
  {
   "property": "C16",
   "status": "proved",
   "theorems": [
    "C16_normalize"
   ],
   "note": "All circuits and weight vectors with positive totals; -inf weights allowed."
  },
  {
   "property": "C17",
   "status": "proved",
   "theorems": [
    "C17_sample_cells"
   ],
   "note": "Any distribution type; random counts and shuffles are arguments constrained only by 'possible' (counts add up, zero-weight children get none, shuffles are permutations). Sampled values themselves are not modelled, only which leaf writes which cell."
  },
  {
   "property": "C18",
   "status": "partial",
   "theorems": [
    "C18_combinations_refuted",
    "C18_no_crossing",
    "C18_combinations_partial"
   ],
   "note": "False as stated: each leaf of a tree writes one consecutive block, so the four combinations of two components with two components never all occur in one sample. Proved: any single selection of positive-weight children can occur."
  },
  {
   "property": "C19",
   "status": "proved",
   "theorems": [
    "C19_json_round_trip"
   ],
   "note": "All well-formed circuits, all hashes that distinguish the units. Serialisation of variables and intervals is random_events code and assumed lossless."
  },
  {
   "property": "C20",
   "status": "proved",
   "theorems": [
    "C20_copy_lossless",
    "C20_copy_independent"
   ],
   "note": "All circuits; all later sequences of in-place operations and further copies, in both directions."
  },
  {
   "property": "C21",
   "status": "partial",
   "theorems": [
    "C21_equality_refuted",
    "C21_equality_partial",
    "C21_equality_complete"
   ],
   "note": "False of the code: == ignores the distributions of the leaves. Proved when the leaf distributions agree in order."
  },
  {
   "property": "C22",
   "status": "partial",
   "theorems": [
    "C22_decomposability_refuted",
    "C22_decomposability_partial",
    "C22_product_check",
    "C22_product_raises"
   ],
   "note": "False of the code: the circuit-level check looks for product units among the leaves and always answers True. Proved: right on decomposable circuits; the per-unit check decides, and raises if a child is a sum unit without subcircuits."
  },
  {
   "property": "C23",
   "status": "proved",
   "theorems": [
    "C23_deterministic",
    "C23_units",
    "C23_check",
    "C23_complete"
   ],
   "note": "For all layered circuits whose products have children and whose leaves have well-formed parameters, after any earlier queries. Events of random_events are modelled as unions of boxes."
  },
  {
   "property": "C24",
   "status": "partial",
   "theorems": [
    "C24_support_contains",
    "C24_support_partial",
    "C24_support_refuted"
   ],
   "note": "Every point of positive likelihood is in the support (all circuits). The converse is false for Dirac leaves with the default density cap of infinity (inf + -inf = nan), refuted; proved for finite caps."
  },
  {
   "property": "C25",
   "status": "partial",
   "theorems": [
    "C25_mode_partial",
    "C25_mode_returned_partial",
    "C25_mode_refuted",
    "C25_mode_bound_partial"
   ],
   "note": "Upper bound, attainment and non-emptiness proved for finite Dirac caps and truncated Gaussians that attain their maximum; whatever mode() returns is the mode; refuted for the default Dirac cap of infinity (likelihood nan at other points)."
  },
  {
   "property": "C26",
   "status": "partial",
   "theorems": [
    "C26_moment_partial",
    "C26_expectation_partial",
    "C26_variance_partial",
    "C26_symbolic_raises",
    "C26_moment_refuted",
    "C26_variance_refuted"
   ],
   "note": "The result is the mixture of the true leaf moments (uniform, Gaussian, truncated Gaussian, integer, Dirac), and the mixture is the marginal distribution; expectation and variance likewise; refuted for Dirac leaves of order two (see C27), so the variance of point-mass mixtures is wrong."
  },
  {
   "property": "C27",
   "status": "partial",
   "theorems": [
    "C27_dirac_moment_partial",
    "C27_dirac_moment_refuted",
    "C27_dirac_moment_iff"
   ],
   "note": "The code returns 0 for every order >= 2; the exact set of correct inputs is characterised."
  },
  {
   "property": "C28",
   "status": "proved",
   "theorems": [
    "C28_gaussian_moments",
    "C28_gaussian_integral",
    "C28_truncated_integral",
    "gamma_integral",
    "gamma_cdf_integral"
   ],
   "note": "All orders, via binomial transforms; also as improper integral against the density. Truncated Gaussians too, for every interval with or without infinite bounds; the library functions math.gamma and gamma.cdf are proved to be the gamma function and its regularised incomplete integral at half-integers."
  },
  {
   "property": "C29",
   "status": "partial",
   "theorems": [
    "C29_translate_partial",
    "C29_single_leaf_unchanged",
    "C29_translate_refuted",
    "C29_shared_refuted"
   ],
   "note": "Proved on the heap model for circuits with an inner root and unshared distribution objects. Refuted for single-leaf circuits (the leaves property of a leaf unit is empty: nothing moves) and for shared distribution objects (moved twice)."
  },
  {
   "property": "C30",
   "status": "partial",
   "theorems": [
    "C30_scale_partial",
    "C30_dirac_refuted",
    "C30_gaussian_refuted",
    "C30_single_leaf_refuted",
    "C30_scale_refuted"
   ],
   "note": "Proved for uniform, integer and symbolic leaves under an inner root, unshared objects, all events. Refuted for Dirac leaves (scale adds), Gaussian leaves (scale attribute hides the method: raises) and single-leaf circuits (nothing scaled)."
  },
  {
   "property": "C31",
   "status": "partial",
   "theorems": [
    "C31_normalize",
    "C31_conditional",
    "C31_fit_symbolic",
    "C31_fit_best",
    "C31_fit_partial",
    "C31_fit_refuted"
   ],
   "note": "normalize and conditioning hold in full; fit is keyed by hash(value) and CPython's hash(-1) = -2, so fit loses probability on data with -1 and -2; proved for all data whose values hash to themselves. With an injective hash the fitted distribution is the only one of maximal likelihood."
  },
  {
   "property": "C32",
   "status": "partial",
   "theorems": [
    "C32_integer_cdf_partial",
    "C32_integer_cdf_refuted"
   ],
   "note": "Holds for ascending dictionaries and all batches; refuted otherwise."
  },
  {
   "property": "C33",
   "status": "proved",
   "theorems": [
    "C33_missing_dict"
   ],
   "note": ""
  },
  {
   "property": "C34",
   "status": "partial",
   "theorems": [
    "C34_axes",
    "C34_marginal_partial",
    "C34_order_refuted",
    "C34_raises_refuted"
   ],
   "note": "False as stated: the remaining axes stay in the order of self.variables while the result is labelled with V's order (swapped names, or ValueError when sizes differ). Proved exactly what the array holds for every order, and the claim for V in the joint's order."
  },
  {
   "property": "C35",
   "status": "partial",
   "theorems": [
    "C35_conditional",
    "C35_mode",
    "C35_circuit_likelihood",
    "C35_circuit_probability_partial",
    "C35_circuit_refuted"
   ],
   "note": "Conditional (Bayes for disjoint simple events) and mode (all and only the maximisers) proved in full; circuit likelihood at index points proved in full; event probabilities of the circuit agree when elements hash to their indices and are refuted otherwise (leaf keys are index hashes, not element hashes)."
  },
  {
   "property": "C36",
   "status": "partial",
   "theorems": [
    "C36_deterministic_sum",
    "C36_from_mixture_partial",
    "C36_round_trip_partial",
    "C36_refuted"
   ],
   "note": "as_deterministic_sum proved in full for any leaf of any layered circuit: same likelihoods, same event probabilities, children exclusive and weighted by the entries. from_mixture proved for symbolic leaves and for integer leaves whose keys Python's hash does not change; the full statement is refuted: an integer distribution on -1 comes back on -2 because keys are stored under hash(value)."
  },
  {
   "property": "C37",
   "status": "partial",
   "theorems": [
    "C37_interaction_partial",
    "C37_refuted"
   ],
   "note": "Proved for every layered pair of mixtures over disjoint variables and every non-negative table whose rows all have positive sums (the old weights are overwritten, so they need not even be the marginal): densities and event probabilities are sum_i sum_j m(i,j) own_i other_j, the result is layered, smooth and decomposable. Refuted in general: a zero-weight component keeps its old edge, and as first child it makes the circuit's variables wrong."
  },
  {
   "property": "C38",
   "status": "partial",
   "theorems": [
    "C38_bayesian_network_partial",
    "C38_refuted",
    "C38_edges_refuted"
   ],
   "note": "Full statement C38_full refuted (a one-node network has no circuit) and C38_edges_full refuted (a message whose states are not in domain order). Proved for every network with an edge whose domains are 0..n-1, whose root is positive and whose first table rows are positive: the circuit exists, is smooth, decomposable and over exactly the network's variables, and its likelihood at every assignment is the product of the root probability and the table entries."
  },
  {
   "property": "C39",
   "status": "partial",
   "theorems": [
    "C39_forward_partial",
    "C39_messages_refuted",
    "C39_probabilities_refuted"
   ],
   "note": "Full statements C39_messages and C39_probabilities refuted with concrete networks. Proved: the root message and probability are always right; a message is right if the evidence along its path does not distinguish the allowed parent states, and the forward probability is then the conditional probability of the node's evidence given the evidence above."
  },
  {
   "property": "C40",
   "status": "partial",
   "theorems": [
    "C40_nyga_partial",
    "C40_nyga_weights_partial",
    "C40_refuted"
   ],
   "note": "Proved for every data set with at least two distinct values, every positive min_samples_per_quantile and every non-negative improvement threshold (the loop runs until the queue is empty for fuel at least twice the data size). The full statement without the guards is refuted: a negative threshold makes a step with no candidate split index fail. Data with one value become a Dirac leaf and are outside the quantile statement."
  },
  {
   "property": "C41",
   "status": "proved",
   "theorems": [
    "C41_from_uniform_mixture"
   ],
   "note": "For every circuit of sum units (any DAG with graded paths) over uniform leaves of one variable with real or -inf log weights: the call succeeds, the result passes is_deterministic, and every non-empty interval union gets the same answer from both circuits."
  },
  {
   "property": "C42",
   "status": "partial",
   "theorems": [
    "C42_jpt_partition_partial",
    "C42_refuted"
   ],
   "note": "Proved for every non-empty data set, every minimal leaf size (a count or a share, stated on the raw parameter) that does not exceed the number of samples, every natural or infinite depth limit and every impurity computation that respects its contract (reorders the index array within the bounds, cuts into two parts of at least the minimal size): fitting ends within twice the number of samples steps and the leaves partition the samples. The full statement is refuted: with fewer samples than min_samples_leaf the only leaf is too small."
  },
  {
   "property": "C43",
   "status": "partial",
   "theorems": [
    "C43_max_leaves_partial",
    "C43_refuted"
   ],
   "note": "max_leaves is never read, so the statement is refuted. Proved instead: the number of leaves is at most the number of samples, at most the number of samples over min_samples_leaf, and at most 2^max_depth."
  },
  {
   "property": "C44",
   "status": "partial",
   "theorems": [
    "C44_isolated_partial",
    "C44_refuted"
   ],
   "note": "Refuted: the queue is a class attribute, an interrupted fit leaves entries that the next fit of any JPT takes over. Proved for all sequences of finished fits."
  },
  {
   "property": "C45",
   "status": "proved",
   "theorems": [
    "C45_targets_and_features"
   ],
   "note": "All four cases, for all lists with duplicates."
  },
  {
   "property": "C46",
   "status": "partial",
   "theorems": [
    "C46_json_partial",
    "C46_copy_partial",
    "C46_json_refuted",
    "C46_copy_refuted",
    "C46_copy_samples_refuted"
   ],
   "note": "The JSON round trip is the identity if no target or feature is listed twice and all names are known; refuted otherwise. empty_copy keeps targets, features, depth limit and dependencies, but not max_leaves, total_samples or a relative min_samples_leaf: refuted."
  },
  {
   "property": "C47",
   "status": "proved",
   "theorems": [
    "C47_encode_decode",
    "C47_standardised"
   ],
   "note": "Over real numbers."
  },
  {
   "property": "C48",
   "status": "proved",
   "theorems": [
    "C48_random_partition",
    "C48_region_graph"
   ],
   "note": "For every permutation (shuffle oracle), k >= 1 (k = 0 raises in array_split). The whole-graph theorem covers every partition of every graph create_random_region_graph returns; partitions of single variables have no children."
  },
  {
   "property": "C49",
   "status": "partial",
   "theorems": [
    "C49_conversion_partial",
    "C49_refuted"
   ],
   "note": "The full claim is false: a region of one variable reached before the depth limit keeps a childless Partition, and as_probabilistic_circuit raises. Proved: conversion succeeds exactly if 2*k^depth <= n, and the result is over all variables, has one node per class, is sound and passes every layer check."
  },
  {
   "property": "C50",
   "status": "proved",
   "theorems": [
    "C50_sparse_sum_layer",
    "C50_dense_sum_layer",
    "C50_normalized_weights"
   ],
   "note": "For every sparse sum layer with at least one edge, in-bound indices and weights below plus infinity, and every values of the child layers (minus infinity and NaN included); a node whose weights are all zero gets NaN, zero over zero. A layer without any edge raises (maximum of an empty array). Also for dense sum layers with positive total weights. Arithmetic is without rounding."
  },
  {
   "property": "C51",
   "status": "partial",
   "theorems": [
    "C51_columns_partial",
    "C51_refuted"
   ],
   "note": "Proved for layered circuits of any depth in which product layers nested below product layers are over the variables 0..m-1 (in particular without nested product layers): every node's log-likelihood is that of the circuit it means. The full statement is refuted: the inner of two nested product layers indexes the columns it was handed with absolute variable numbers."
  },
  {
   "property": "C52",
   "status": "partial",
   "theorems": [
    "C52_indices_partial",
    "C52_refuted"
   ],
   "note": "Exact characterisation for every list of lengths: both functions return the intended columns if and only if every row after the second is empty or preceded by empty rows only up to its predecessor; the indent pointer is always right. The full statement is refuted by three rows of length one."
  },
  {
   "property": "C53",
   "status": "proved",
   "theorems": [
    "C53_shrink",
    "C53_order_isomorphism"
   ],
   "note": "For every array of non-negative indices."
  },
  {
   "property": "C54",
   "status": "partial",
   "theorems": [
    "C54_to_nx_partial",
    "C54_to_nx_likelihood_partial",
    "C54_to_nx_refuted",
    "C54_from_nx_partial",
    "C54_from_nx_density_partial",
    "C54_from_nx_total_partial",
    "C54_from_nx_likelihood_partial",
    "C54_round_trip_partial",
    "C54_from_nx_refuted",
    "C54_duplicates_added",
    "C54_unknown_variable",
    "C54_circuit_partial",
    "C54_states_written",
    "C54_states_read",
    "C54_states_evaluated"
   ],
   "note": "to_nx: every unit unfolds to exactly the tree its node means (normalised weights, leaf parameters), for all layered circuits without dense sum layers (and without Dirac layers unless there is a progress bar); refuted for dense sum layers, whose weights are exponentiated twice. from_nx: for graded, smooth, decomposable circuits whose product units speak about all variables one step further, the root means the tree of the circuit up to the order of children, with normalised weights and the leaves an input layer holds; same density if no leaf changes; does not raise for orderly circuits, and then the layered circuit computes the log-likelihoods of the circuit, and converting it back gives a tree with the same weights, leaves and density; refuted because the scale of Gaussians grows by 0.01. Examples: nested products are lost, mixed leaf families raise. Several subcircuits of a product in one layer (not decomposable) have their columns added up (C54_duplicates_added). Symbolic states are written to numpy's columns: negative states count from the end, others beyond raise (C54_states_written, C54_states_read)."
  },
  {
   "property": "C55",
   "status": "partial",
   "theorems": [
    "C55_slices",
    "C55_slices_lossless",
    "C55_rebuild_partial",
    "C55_own_conditioner_partial",
    "C55_parameters_partial",
    "C55_conditioner_partial",
    "C55_refuted",
    "C55_validate_partial",
    "C55_matrix",
    "C55_dense",
    "C55_dense_entries"
   ],
   "note": "Slices are contiguous, disjoint, ordered and cover 0..number_of_trainable_parameters, for all layers. Rebuilding is the identity for circuits whose parameter arrays are all vectors, and the parameters of another circuit of the same shape give that circuit, so that the conditional log likelihood is that of the generated circuit; refuted for matrices (discrete and dense sum layers), whose slices have the length of the first axis only."
  },
  {
   "property": "C56",
   "status": "partial",
   "theorems": [
    "C56_circuit_partial",
    "C56_refuted",
    "C56_loss_refuted",
    "C56_loss_partial",
    "C56_loss_ignores_samples",
    "C56_generative_loss"
   ],
   "note": "Renumbering: the circuit over the sorted union of names is exactly the class-weighted mixture of the root nodes, for class variables that are new and roots that can be copied; refuted for discrete and Dirac layers (cannot be copied). The classification loss claim is refuted: log_probs[y] selects rows by label; proved that it ignores all samples beyond the number of classes, and that it is right for a single class with equal likelihoods. The generative loss is the average negative log-likelihood."
  },
  {
   "property": "C57",
   "status": "partial",
   "theorems": [
    "C57_characterised",
    "C57_probability",
    "C57_proportional_partial",
    "C57_leaf_partial",
    "C57_proportional_refuted",
    "C57_shallow_refuted"
   ],
   "note": "For every tree-shaped circuit the call succeeds and the result is in shallow form; its value is characterised exactly: weights below the root are dropped and every circuit that is not a leaf gets a factor e. The claim is therefore refuted, even up to a constant factor; proved for leaves, and up to the factor e*k for circuits whose inner sums weight children by their number of terms."
  },
  {
   "property": "C58",
   "status": "partial",
   "theorems": [
    "C58_uniform_partial",
    "C58_uniform_refuted"
   ],
   "note": "Proved for bounding boxes whose continuous intervals have equal lengths (symbolic and integer variables arbitrary) and simple sets taking the whole box or one interval of it. Refuted in general: the log-weights are the interval lengths, not their logarithms, so [0,1] and [2,4] get the ratio e : e^2."
  },
  {
   "property": "C59",
   "status": "partial",
   "theorems": [
    "C59_variance_answer",
    "C59_variance_partial",
    "C59_dirac",
    "C59_refuted"
   ],
   "note": "For all valid circuits over numeric leaves (truncated Gaussians included): variance is non-negative and is the second moment about the mean minus what the point masses contribute; right when every point mass lies at the mean; zero for a Dirac. Refuted with other point masses (fair coin between 0 and 2)."
  },
  {
   "property": "C60",
   "status": "proved",
   "theorems": [
    "C60_bounded",
    "C60_no_samples",
    "C60_raises",
    "C60_of_event",
    "C60_unbiased",
    "C60_distance",
    "C60_uniform_nonnegative",
    "C60_uniform_distance"
   ],
   "note": "For all samples, likelihoods (infinite and nan included) and tolerances. Beyond the claim: over finite outcome spaces the expected estimate is the L1 distance."
  },
  {
   "property": "C61",
   "status": "partial",
   "theorems": [
    "C61_jpt_valid",
    "C61_jpt_total",
    "C61_refuted"
   ],
   "note": "Proved for tables whose discrete columns have no hash collisions and continuous variables with positive min_samples_per_quantile and non-negative improvement; guards as for C42. The full statement is refuted: an integer column with -1 and -2 loses half of its probability, because fit stores values under hash(value) (C61_refuted)."
  },
  {
   "property": "C62",
   "status": "partial",
   "theorems": [
    "C62_dirac_partial",
    "C62_refuted"
   ],
   "note": "Refuted: the isinstance test is applied to the unit, not to its distribution, so the cap stays infinite. The location is proved right."
  },
  {
   "property": "C63",
   "status": "partial",
   "theorems": [
    "C63_remove_partial",
    "C63_refuted"
   ],
   "note": "Proved for every matrix with at least one entry that differs from zero; for a matrix of zeros only, the sparse function raises (maximum of an empty array) while the dense one returns an empty matrix, so the full statement is refuted."
  },
  {
   "property": "C64",
   "status": "partial",
   "theorems": [
    "C64_law",
    "C64_samples",
    "C64_within",
    "C64_no_error",
    "C64_law_partial",
    "C64_one_sided",
    "C64_full_refuted",
    "C64_far_off"
   ],
   "note": "The full claim is refuted: an infinite bound is replaced by ten standard deviations from the finite one, so with exactly one infinite bound the law is never that of the distribution (C64_one_sided), and can be arbitrarily far off (C64_far_off). Proved: the law with two finite bounds (C64_law_partial), the law in general (that of the distribution truncated further), number, range and independence of samples, no exception. Unbounded intervals delegate to scipy and are not modelled."
  },
  {
   "property": "C65",
   "status": "partial",
   "theorems": [
    "C65_raises",
    "C65_untouched",
    "C65_left_behind",
    "C65_refuted"
   ],
   "note": "The full statement is refuted: as_deterministic_sum already removes the leaf from the circuit and the method then asks for its predecessors, so it raises whenever there is a discrete leaf (C65_raises). Proved: what the exception leaves behind still has the same likelihoods and probabilities (C65_left_behind), and circuits without discrete leaves are unchanged (C65_untouched)."
  },
  {
   "property": "C66",
   "status": "partial",
   "theorems": [
    "C66_structure",
    "C66_weights_lost",
    "C66_refuted"
   ],
   "note": "The full statement is refuted: the method takes the logarithm of weights that are logarithms already. Proved: the graph is exactly the intended pairing with log(log weight) on the edges (C66_structure), and for weights of at most 1 every new weight is nan or -inf (C66_weights_lost)."
  },
  {
   "property": "C67",
   "status": "partial",
   "theorems": [
    "C67_l1_partial",
    "C67_exact_partial",
    "C67_metric_partial",
    "C67_l1_refuted",
    "C67_difference"
   ],
   "note": "Proved for circuits whose components do not overlap (what is_deterministic checks): exact for tolerance 0, up to tolerance times the volume of the components otherwise, and the metric laws for tolerance 0. False for overlapping components, because the densities are compared at the centre of each overlap only: C67_l1_refuted has two different distributions with l1 = 0. Leaves are uniform, as the shallow form asks for; the set operations of random_events are modelled by one implementation that returns disjoint boxes."
  },
  {
   "property": "C68",
   "status": "partial",
   "theorems": [
    "C68_sound",
    "C68_layered_partial",
    "C68_ones_partial",
    "C68_weights_refuted",
    "C68_paths_refuted"
   ],
   "note": "For every well formed circuit the search ends, lists only weights of different paths and at least one per unit (C68_sound); all paths are listed when all paths to a unit have the same length. False in general twice over: the code reads the attribute weight, which is never written, so that all entries are 1; and a unit that is reached by a short path is visited before its last parent, so that paths are missing below it."
  },
  {
   "property": "C69",
   "status": "proved",
   "theorems": [
    "C69_minimal_distance",
    "C69_infer",
    "C69_refused"
   ],
   "note": "For all tables of floats, integers and strings without missing entries; other tables are refused."
  },
  {
   "property": "C70",
   "status": "partial",
   "theorems": [
    "C70_preprocess_partial",
    "C70_standardised_partial",
    "C70_preprocess_refuted",
    "C70_shape"
   ],
   "note": "Proved when no scaled column is constant. False for a constant column that is scaled: its deviation is zero and all its entries become NaN."
  },
  {
   "property": "C71",
   "status": "partial",
   "theorems": [
    "C71_factorized_partial",
    "C71_standard_partial",
    "C71_moments",
    "C71_integer_refused",
    "C71_factorized_refuted"
   ],
   "note": "For all inputs the variables are independent, symbols uniform, means as given, but the given variances act as standard deviations; the full claim holds for variances equal to one and is refuted for a variance of four."
  },
  {
   "property": "C72",
   "status": "proved",
   "theorems": [
    "C72_is_valid",
    "C72_empty",
    "C72_rooted",
    "C72_trees"
   ],
   "note": "Kahn's algorithm and the search of networkx are modelled and proved for all graphs."
  },
  {
   "property": "C73",
   "status": "partial",
   "theorems": [
    "C73_components_partial",
    "C73_sound",
    "C73_refuted",
    "C73_depth"
   ],
   "note": "The count is never below the number of leaves and edges of the converted circuit and equals it exactly for tidy layers (no duplicate entries, no surplus weights); layers with sound parameters and distinct indices are tidy. Refuted in general: duplicate weight entries are counted twice but give one edge. all_layers_with_depth is correct for all layers."
  },
  {
   "property": "C74",
   "status": "partial",
   "theorems": [
    "C74_hybrid_network_partial",
    "C74_refuted"
   ],
   "note": "Proved for networks of any size whose circuit nodes list their circuits in the order of the parent states, below parents with at least two states, with circuits that are neither mixtures nor simplifiable and tables as in C38. The full statement is refuted: the circuits are read by their position in the dictionary, not by their key (C74_refuted)."
  },
  {
   "property": "C75",
   "status": "partial",
   "theorems": [
    "C75_from_unit_partial",
    "C75_mixture_partial",
    "C75_refuted"
   ],
   "note": "Proved for mixtures of leaves: keys, densities of the circuits, and (at least two components with positive weights, leaves over one variable with its whole domain) the density of the converted network. The full statement is refuted: components that are sum or product units are copied without their subcircuits (C75_refuted)."
  },
  {
   "property": "C76",
   "status": "partial",
   "theorems": [
    "C76_equality",
    "C76_equivalence",
    "C76_answers_partial",
    "C76_ordered_partial",
    "C76_hash_refuted",
    "C76_unhashable",
    "C76_cdf_refuted",
    "C76_refuted"
   ],
   "note": "Equality decides exactly sameness of class, variable and parameters up to the order of dictionaries; it is an equivalence relation, and equal distributions have the same density, event probabilities, moments and support. The full statement is refuted: the hash of discrete distributions reads the dictionary in insertion order (equal distributions with different hashes), and so does the cdf of integer distributions. Gaussians have no hash at all. With dictionaries in ascending order everything holds."
  },
  {
   "property": "C77",
   "status": "partial",
   "theorems": [
    "C77_close_partial",
    "C77_reflexive",
    "C77_not_symmetric",
    "C77_not_transitive",
    "C77_refuted"
   ],
   "note": "Reflexive, and equal multinomials agree on the variables and up to the added tolerances of np.allclose on the probability of every set of states. Refuted: it is neither symmetric nor transitive, and equal distributions need not be the same."
  },
  {
   "property": "C78",
   "status": "partial",
   "theorems": [
    "C78_roundtrip_partial",
    "C78_identical_partial",
    "C78_raises_exactly",
    "C78_injective_partial",
    "C78_refuted"
   ],
   "note": "The full statement is refuted: [jnp.array] of an empty list has neither the rank nor the integer type of the indices it was written from, so a layer with a sparse matrix without entries (for instance a sum layer with an unused child layer) cannot be read back. Proved: reading succeeds exactly if no such array is empty, and then the circuit is the same, identically so without dense sum layers; what is written tells circuits apart."
  },
  {
   "property": "C79",
   "status": "proved",
   "theorems": [
    "C79_fit",
    "C79_forgets",
    "C79_outside",
    "C79_no_data",
    "C79_negative"
   ],
   "note": "Relative frequencies, total one, unique maximiser of the likelihood (Gibbs' inequality). Also: what was there before is forgotten, rows outside the shape raise, and without data every probability is nan. Negative entries count from the end."
  },
  {
   "property": "C80",
   "status": "proved",
   "theorems": [
    "C80_roundtrip"
   ],
   "note": "For variables with non-empty domains, of any number."
  },
  {
   "property": "C81",
   "status": "partial",
   "theorems": [
    "C81_marginal_partial",
    "C81_continuous_partial",
    "C81_discrete_partial",
    "C81_unsimplified",
    "C81_none",
    "C81_fitted_partial",
    "C81_refuted"
   ],
   "note": "True for all variable lists and events, with or without simplification, unless one continuous variable is asked for that has a point mass leaf (from_uniform_mixture raises: C81_refuted) or one integer variable with values that Python's hash changes. C81_fitted_partial: every fitted tree."
  },
  {
   "property": "C82",
   "status": "partial",
   "theorems": [
    "C82_ranges",
    "C82_repeated",
    "C82_refuted"
   ],
   "note": "Ranges proved for every region graph that is converted. Fresh draws refuted: one key serves all draws, so all Gaussian layers have the same locations and scales, the scale follows from the location, discrete layers with as many states are equal, and dense matrices of the same shape are equal (C82_repeated, for every generator)."
  },
  {
   "property": "C83",
   "status": "partial",
   "theorems": [
    "C83_simplify",
    "C83_normalize",
    "C83_marginal_in_place",
    "C83_conditional_in_place",
    "C83_marginal",
    "C83_probability_partial",
    "C83_conditional_partial",
    "C83_event_partial",
    "C83_event_in_place_partial",
    "C83_impossible_event"
   ],
   "note": "Simplifying, normalising, marginalising and conditioning on one simple set do to a circuit object what the functions do to its circuit, for all circuits. Conditioning on one or several simple sets adds an object that follows Bayes' rule, for valid trees under the guards of C09; impossible events return None and 0. Missing: equality of the returned number with that of conditional_event for several simple sets."
  },
  {
   "property": "C84",
   "status": "proved",
   "theorems": [
    "C84_samples",
    "C84_within",
    "C84_ends",
    "C84_law"
   ],
   "note": "the stream of standard normal numbers is a parameter; the law is that of one attempt over a standard normal number; recursion depth is a fuel parameter"
  },
  {
   "property": "C85",
   "status": "proved",
   "theorems": [
    "C85_rows",
    "C85_law",
    "C85_short"
   ],
   "note": "numpy's binomial generator is taken to have the binomial distribution; tocsc is left out"
  },
  {
   "property": "C86",
   "status": "proved",
   "theorems": [
    "C86_embed"
   ],
   "note": "several values for one position are left open by jax and excluded unless equal; float32 rounding is not modelled"
  },
  {
   "property": "C87",
   "status": "proved",
   "theorems": [
    "C87_arguments"
   ],
   "note": "the class Impurity is compiled code of another library; its arguments are modelled"
  },
  {
   "property": "C88",
   "status": "proved",
   "theorems": [
    "C88_without_split",
    "C88_of_split",
    "C88_decision",
    "C88_fit"
   ],
   "note": "Real arithmetic. The likelihood that decides counts every distinct value once, as in the code; the last part of C88_fit is about the data with repetitions."
  },
  {
   "property": "C89",
   "status": "proved",
   "theorems": [
    "C89_quantiles_histogram",
    "C89_histogram"
   ],
   "note": "Real arithmetic. C89_histogram is about fit without weights; C89_quantiles_histogram about every circuit that C40 describes."
  },
  {
   "property": "C90",
   "status": "proved",
   "theorems": [
    "C90_groups",
    "C90_frequency"
   ],
   "note": "For all tables whose discrete values have distinct hashes; continuous variables are constrained at most outside the range of their column (their leaves are the histograms of C89). The impurity computation is any function that respects its contract."
  },
  {
   "property": "C91",
   "status": "partial",
   "theorems": [
    "C91_likelihood_partial",
    "C91_discrete_partial",
    "C91_refuted"
   ],
   "note": "The formula holds when no continuous column of a group is constant (then its leaf is a Dirac distribution with an infinite density), in particular for all tables of symbols and integers, where every row of the data has a positive likelihood (C91_discrete_partial). In general the likelihood of a row of the data is never zero, but refuted: it can be NaN, infinity times zero, when a row shares a constant column with a group that excludes its other entries. Integers are those that Python hashes to themselves."
  },
  {
   "property": "C92",
   "status": "partial",
   "theorems": [
    "C92_validated_partial",
    "C92_refuted",
    "C92_edges"
   ],
   "note": "For circuits in which every sparse sum layer has an edge, matrices refer to existing nodes and discrete layers have states, none of which validate looks at; refuted without: a sparse sum layer without edges passes validation and raises on evaluation."
  },
  {
   "property": "C93",
   "status": "partial",
   "theorems": [
    "C93_moment_partial",
    "C93_expectation_partial",
    "C93_variance_partial",
    "C93_symbols_raise",
    "C93_refuted"
   ],
   "note": "Integer columns: moments of any order and center are the averages over the data; with only integer columns expectation and variance are mean and biased variance. First moments of continuous columns lie in the range of the column. Refuted in full: a continuous column 0,1,1 in one cell has expectation 1/2 instead of 2/3. With a symbolic variable every moment raises."
  },
  {
   "property": "C94",
   "status": "partial",
   "theorems": [
    "C94_rows",
    "C94_table_partial",
    "C94_joint_partial",
    "C94_circuit_partial",
    "C94_impossible",
    "C94_int",
    "C94_assertions",
    "C94_impossible_refuted",
    "C94_names_refuted",
    "C94_again"
   ],
   "note": "Proved when every state of the parent is possible and (for the keys) the own domain's elements are their own indices; int of the parent's elements is their hash. Refuted in full: an impossible state of the parent raises, and other names are stored under their indices."
  }
 ]
}
