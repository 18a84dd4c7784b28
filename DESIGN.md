# Formal model of tomsch420/probabilistic_model

The model is written in Coq 8.16.1 under `rocq/theories` (logical name `Verif`).
The repository in `/repo` is read as text only; it is neither built nor run.

## How the code is modelled

* **Numbers.** Python floats are idealised as extended real numbers
  `num = NaN | -inf | finite real | +inf` over Coq's stdlib reals. There is no rounding, overflow or
  underflow. `NaN` and the infinities are kept because the code branches on `-inf`
  and because log weights of zero-probability edges are `-inf`.
* **Circuits.** A circuit is an insertion-ordered directed graph like the `networkx.DiGraph` of the code:
  an ordered list of nodes and an ordered list of edges with an optional `log_weight`.
  `result_of_current_query` is an explicit store, so that leftovers of earlier queries are visible.
  `layers` is a transcription of `networkx.bfs_layers`.
* **Semantics.** The small separate specification is a tree `pc` (leaf / weighted sum / product) and a
  relation `unfolds g n t` ("node n of graph g unfolds to tree t"). Density, probability and moments of a
  tree are structural recursions. Theorems state that the graph algorithms compute them.
* **Events.** `random_events` is not part of `/repo`. Its intervals, sets and simple events are modelled by
  their documented meaning (trusted, see below).
* **Randomness, impurity, hashes, permutations** are universally quantified inputs.
* **Exceptions** are `option`/error values.
* Where a property is false of the code, the theorem `..._refuted` exhibits a witness and the property is also
  proved under the guard that makes it true (`..._partial`).

## Plan per property

| id | model | method |
|----|-------|--------|
| C01, C02 | graph + store + BFS layers | induction over the evaluation order against tree semantics; refutation on a DAG whose BFS order is not topological |
| C03 | tree semantics, leaf measures | structural induction on the tree |
| C04 | interval unions, monotone cdf | refinement to elementary cells |
| C05 | cdf and probability evaluation | leaf lemmas, then induction; refutation for unsorted integer dictionaries |
| C06, C07 | uniform distribution | real analysis (Riemann integral) |
| C08-C10 | in-place conditioning on graphs | tree semantics of conditioning; refutation witnesses |
| C11, C20 | heap model of units and distributions with sharing | frame argument; refutation through the shared probability dictionary |
| C12 | marginal on graphs | structural induction |
| C13-C15 | simplify as graph surgery | step lemma + induction over the schedule of steps; refutation with shared units / zero weights |
| C16 | normalize | algebra of exp/ln |
| C17, C18 | sampling requests as intervals of rows, arbitrary counts and shuffles | invariant of request lists; counting argument |
| C19 | JSON as a data type keyed by hashes | round-trip theorem for injective hashes |
| C21, C22 | structural equality / decomposability check as coded | refutation + what does hold |
| C23-C25 | support, determinism, mode | induction over trees / evaluation order |
| C26-C28, C59 | moments | induction; recurrence for Gaussians; refutation for Dirac orders >= 2 |
| C29, C30 | translate / scale | change of variables; refutations (leaf root, Dirac) |
| C31-C33 | dictionaries as association lists | list induction |
| C34, C35 | tables as functions of index tuples | finite sums |
| C36 | as_deterministic_sum | finite sums |
| C37-C39 | mixtures, interaction tables, forward messages | finite sums, induction on the network tree |
| C40, C41 | Nyga induction as a queue of index ranges | queue invariant, termination measure |
| C42-C44 | JPT induction with impurity oracle; shared class-level queue | queue invariant; refutations |
| C45-C47 | parameter functions | case analysis, field arithmetic |
| C48, C49 | array_split, recursive_split | list lemmas; refutation |
| C50-C56 | JAX layers and index helpers | list induction; refutations |
| C57 | shallowing | refutation |
| C58 | uniform measures | refutation + single-interval case |
| C60 | Monte-Carlo estimators | order reasoning |
| C64 | rejection loop on a stream of random numbers | loop invariant; integral of the acceptance function; refutation for infinite bounds |

No property is declared inexpressible. C61 - C63 were added while modelling joint probability trees and the sparse
index helpers; later additions continue the numbering.

## Where things are

Model files (one comment per definition with the file and the lines of `/repo` it models); `/repo/src/probabilistic_model`
is abbreviated `src`:

| model file | models |
|---|---|
| `Num`, `Interval`, `GaussInt`, `GammaFn` | floats, intervals of `random_events`, the standard normal and gamma distributions of scipy |
| `Graph`, `Circuit` | the `networkx.DiGraph` of a circuit; variables, forward functions and one-pass queries of `src/probabilistic_circuit/nx/probabilistic_circuit.py` (PC.py) |
| `Dist` | `src/distributions/{distributions,uniform,gaussian}.py` |
| `Simplify`, `Conditional`, `ConditionalEvent` | simplify, normalize, marginal, conditioning on simple sets and on events of several simple sets |
| `Copy`, `Heap`, `World` | copying, JSON, equality; the same operations on objects with identity and sharing; several circuits side by side |
| `Helpers` | replacing discrete leaves by deterministic sums; `mount_from_bayesian_network` |
| `L1` | `subgraph_of`, the events of higher density and the L1 metric of shallow circuits |
| `NodeWeights` | `nodes_weights` |
| `JptData` | variables inferred from a table, `preprocess_data` |
| `FullyFactorized` | `fully_factorized` |
| `GraphValid` | `is_valid` with the topological sort and the search of networkx |
| `JaxComponents` | `number_of_components`, `all_layers_with_depth` of the layers |
| `Sample`, `TruncSample`, `RejectionSample` | sampling requests and their distribution over rows; Robert's and the plain rejection sampling of truncated Gaussians |
| `Support`, `CircuitMoment` | support, determinism, mode, moments of circuits |
| `Layout`, `Star` | circuits built unit by unit from new objects |
| `Multinomial`, `Mixture`, `Interaction` | `src/distributions/multinomial.py`, discrete leaves as sums, `mount_with_interaction_terms` |
| `Bayes` | `src/bayesian_network` |
| `BayesHybrid` | networks with `ConditionalProbabilisticCircuit` nodes: `forward_pass`, `interaction_term`, `as_probabilistic_circuit` |
| `BayesFromUnit` | `ConditionalProbabilisticCircuit.from_unit` and `__copy__` of units |
| `BayesFromMulti` | `ConditionalProbabilityTable.from_multinomial_distribution`; `int` of a set element is a parameter |
| `DistEq` | `__eq__` and `__hash__` of univariate distributions, Python's dispatch of `==`, `__eq__` of multinomials |
| `MultinomialFit` | `fit`, `to_json` and `_from_json` of multinomials; `MaxLikelihood` proves that relative frequencies are the only maximisers of the likelihood |
| `Nyga`, `Jpt` | `src/learning/nyga_distribution.py`, `src/learning/jpt` |
| `JptMarginal` | `JPT.marginal` |
| `JptImpurity` | `JPT.construct_impurity`: the arguments of the compiled impurity class |
| `SparseSample` | `sample_from_sparse_probabilities_csc` with numpy's multinomial generator and scipy's csr arrays |
| `RegionGraph` | `src/learning/region_graph` |
| `JaxUtils`, `JaxLayer`, `JaxToNx`, `JaxFromNx`, `Coupling`, `Classification`, `JaxJson` | `src/probabilistic_circuit/jax` |
| `MonteCarlo`, `UniformMeasure`, `Shallow` | `src/monte_carlo_estimator.py`, `src/probabilistic_circuit/nx/helper.py`, `ShallowProbabilisticCircuit` |

`Spec`, `JaxSpec` and `JaxFromNxSpec` are the specification side. The files `...Facts`, `...Tree`, `...Main` and the like are proofs.
The files `Properties...` hold the final theorems with the definitions their statements need, an `Example` beside each
and `Print Assumptions`.

## Trusted base

* Coq 8.16.1's kernel. No kernel check is switched off, there are no plugins and no axioms of our own.
* Axioms of the standard library, and nothing else, as printed by `Print Assumptions`:
  * D = `ClassicalDedekindReals.sig_forall_dec`
  * N = `ClassicalDedekindReals.sig_not_dec`
  * F = `FunctionalExtensionality.functional_extensionality_dep`
  * C = `Classical_Prop.classic`
* Coquelicot is used for integrals and derivatives; it adds no axioms.
* The reading of the Python code: each definition cites the lines it models.
* The documented meaning of the `random_events`, `networkx`, `numpy`, `scipy`, `pandas` and `jax` primitives the code calls.

<!-- assumptions begin -->
| property | theorem | file | axioms |
|---|---|---|---|
| C01 | `C01_likelihood_partial` | `PropertiesQuery.v` | C D F N |
| C01 | `C01_likelihood_tree` | `PropertiesQuery.v` | C D F N |
| C01 | `C01_likelihood_refuted` | `PropertiesQuery.v` | C D F N |
| C01 | `C01_stale_result` | `PropertiesQuery.v` | C D F N |
| C01 | `C01_exact` | `PropertiesOrder.v` | C D F N |
| C01 | `C01_fresh_sound` | `PropertiesOrder.v` | C D F N |
| C01 | `C01_shallower_child_raises` | `PropertiesOrder.v` | C D F N |
| C02 | `C02_probability_cdf_partial` | `PropertiesQuery.v` | D F N |
| C02 | `C02_probability_cdf_refuted` | `PropertiesQuery.v` | C D F N |
| C02 | `C02_exact` | `PropertiesOrder.v` | D F N |
| C02 | `C02_cdf_exact` | `PropertiesOrder.v` | D F N |
| C03 | `C03_range` | `PropertiesProb.v` | C D F N |
| C03 | `C03_total` | `PropertiesProb.v` | C D F N |
| C03 | `C03_monotone` | `PropertiesProb.v` | C D F N |
| C03 | `C03_additive` | `PropertiesProb.v` | C D F N |
| C04 | `C04_interval_pointset` | `PropertiesProb.v` | C D F N |
| C04 | `C04_any_cdf` | `PropertiesProb.v` | D F |
| C05 | `C05_cdf_partial` | `PropertiesProb.v` | C D F N |
| C05 | `C05_cdf_refuted` | `PropertiesProb.v` | D F N |
| C06 | `C06_uniform` | `PropertiesDist.v` | C D F N |
| C07 | `C07_truncation` | `PropertiesDist.v` | C D F N |
| C08 | `C08_conditional_probability_partial` | `PropertiesConditional.v` | C D F N |
| C08 | `C08_returned_number_partial` | `PropertiesConditional.v` | C D F N |
| C08 | `C08_conditional_probability_refuted` | `PropertiesConditional.v` | C D F N |
| C08 | `C08_event_returned_partial` | `PropertiesConditionalEvent.v` | C D F N |
| C08 | `C08_event_refuted` | `PropertiesConditionalEvent.v` | C D F N |
| C08 | `C08_event_none_partial` | `PropertiesConditionalEvent.v` | C D F N |
| C08 | `C08_shared_partial` | `PropertiesConditionalDag.v` | C D F N |
| C08 | `C08_shared_refuted` | `PropertiesConditionalDag.v` | C D F N |
| C09 | `C09_bayes_partial` | `PropertiesConditional.v` | C D F N |
| C09 | `C09_bayes_refuted` | `PropertiesConditional.v` | C D F N |
| C09 | `C09_event_partial` | `PropertiesConditionalEvent.v` | C D F N |
| C09 | `C09_event_refuted` | `PropertiesConditionalEvent.v` | C D F N |
| C09 | `C09_overlap_refuted` | `PropertiesConditionalEvent.v` | C D F N |
| C09 | `C09_shared_refuted` | `PropertiesConditionalDag.v` | C D F N |
| C10 | `C10_concentrated_partial` | `PropertiesConditional.v` | C D F N |
| C10 | `C10_concentrated_refuted` | `PropertiesConditional.v` | C D F N |
| C10 | `C10_event_partial` | `PropertiesConditionalEvent.v` | C D F N |
| C10 | `C10_event_refuted` | `PropertiesConditionalEvent.v` | C D F N |
| C11 | `C11_log_conditional_keeps` | `PropertiesCopy.v` | C D F N |
| C11 | `C11_marginal_keeps` | `PropertiesCopy.v` | C D F N |
| C11 | `C11_histories` | `PropertiesCopy.v` | C D F N |
| C12 | `C12_marginal_partial` | `PropertiesMarginal.v` | C D F N |
| C12 | `C12_marginal_refuted` | `PropertiesMarginal.v` | D F N |
| C12 | `C12_shared_refuted` | `PropertiesConditionalDag.v` | C D F N |
| C13 | `C13_simplify_partial` | `PropertiesSimplify.v` | C D F N |
| C13 | `C13_simplify_refuted` | `PropertiesSimplify.v` | C D F N |
| C14 | `C14_alternating_partial` | `PropertiesSimplify.v` | D |
| C14 | `C14_alternating_refuted` | `PropertiesSimplify.v` | D |
| C15 | `C15_unique_root_partial` | `PropertiesSimplify.v` | D |
| C15 | `C15_simplify_returns` | `PropertiesSimplify.v` | D |
| C15 | `C15_unique_root_refuted` | `PropertiesSimplify.v` | D |
| C16 | `C16_normalize` | `PropertiesSimplify.v` | C D F N |
| C17 | `C17_sample_cells` | `PropertiesSample.v` | none |
| C18 | `C18_combinations_refuted` | `PropertiesSample.v` | C D F N |
| C18 | `C18_no_crossing` | `PropertiesSample.v` | none |
| C18 | `C18_combinations_partial` | `PropertiesSample.v` | none |
| C19 | `C19_json_round_trip` | `PropertiesCopy.v` | C D F N |
| C20 | `C20_copy_lossless` | `PropertiesCopy.v` | C D F N |
| C20 | `C20_copy_independent` | `PropertiesCopy.v` | C D F N |
| C21 | `C21_equality_refuted` | `PropertiesCopy.v` | C D F N |
| C21 | `C21_equality_partial` | `PropertiesCopy.v` | C D F N |
| C21 | `C21_equality_complete` | `PropertiesCopy.v` | D F |
| C22 | `C22_decomposability_refuted` | `PropertiesCopy.v` | D |
| C22 | `C22_decomposability_partial` | `PropertiesCopy.v` | none |
| C22 | `C22_product_check` | `PropertiesCopy.v` | none |
| C22 | `C22_product_raises` | `PropertiesCopy.v` | none |
| C23 | `C23_deterministic` | `PropertiesSupport.v` | C D F N |
| C23 | `C23_units` | `PropertiesSupport.v` | C D F N |
| C23 | `C23_check` | `PropertiesSupport.v` | D F |
| C23 | `C23_complete` | `PropertiesSupport.v` | C D F N |
| C24 | `C24_support_contains` | `PropertiesSupport.v` | C D F N |
| C24 | `C24_support_partial` | `PropertiesSupport.v` | C D F N |
| C24 | `C24_support_refuted` | `PropertiesSupport.v` | C D F N |
| C25 | `C25_mode_partial` | `PropertiesSupport.v` | C D F N |
| C25 | `C25_mode_returned_partial` | `PropertiesSupport.v` | C D F N |
| C25 | `C25_mode_refuted` | `PropertiesSupport.v` | C D F N |
| C25 | `C25_mode_bound_partial` | `PropertiesSupport.v` | C D F N |
| C26 | `C26_moment_partial` | `PropertiesMoment.v` | C D F N |
| C26 | `C26_expectation_partial` | `PropertiesMoment.v` | C D F N |
| C26 | `C26_variance_partial` | `PropertiesMoment.v` | C D F N |
| C26 | `C26_symbolic_raises` | `PropertiesMoment.v` | C D F N |
| C26 | `C26_moment_refuted` | `PropertiesMoment.v` | C D F N |
| C26 | `C26_variance_refuted` | `PropertiesMoment.v` | C D F N |
| C27 | `C27_dirac_moment_partial` | `PropertiesDist.v` | C D F N |
| C27 | `C27_dirac_moment_refuted` | `PropertiesDist.v` | C D F N |
| C27 | `C27_dirac_moment_iff` | `PropertiesDist.v` | C D F N |
| C28 | `C28_gaussian_moments` | `PropertiesDist.v` | C D F N |
| C28 | `C28_gaussian_integral` | `PropertiesMoment.v` | C D F N |
| C28 | `C28_truncated_integral` | `PropertiesMoment.v` | C D F N |
| C28 | `gamma_integral` | `GammaFacts.v` | C D F N |
| C28 | `gamma_cdf_integral` | `GammaFacts.v` | C D F N |
| C29 | `C29_translate_partial` | `PropertiesMove.v` | C D F N |
| C29 | `C29_single_leaf_unchanged` | `PropertiesMove.v` | D F |
| C29 | `C29_translate_refuted` | `PropertiesMove.v` | C D F N |
| C29 | `C29_shared_refuted` | `PropertiesMove.v` | C D F N |
| C30 | `C30_scale_partial` | `PropertiesMove.v` | C D F N |
| C30 | `C30_dirac_refuted` | `PropertiesMove.v` | C D F N |
| C30 | `C30_gaussian_refuted` | `PropertiesMove.v` | C D F N |
| C30 | `C30_single_leaf_refuted` | `PropertiesMove.v` | C D F N |
| C30 | `C30_scale_refuted` | `PropertiesMove.v` | C D F N |
| C31 | `C31_normalize` | `PropertiesDist.v` | D F |
| C31 | `C31_conditional` | `PropertiesDist.v` | C D F N |
| C31 | `C31_fit_symbolic` | `PropertiesDist.v` | D F |
| C31 | `C31_fit_best` | `PropertiesMultinomialFit.v` | C D F N |
| C31 | `C31_fit_partial` | `PropertiesDist.v` | D F |
| C31 | `C31_fit_refuted` | `PropertiesDist.v` | D F |
| C32 | `C32_integer_cdf_partial` | `PropertiesDist.v` | D F |
| C32 | `C32_integer_cdf_refuted` | `PropertiesDist.v` | D F |
| C33 | `C33_missing_dict` | `PropertiesDist.v` | D |
| C34 | `C34_axes` | `PropertiesMultinomial.v` | D F |
| C34 | `C34_marginal_partial` | `PropertiesMultinomial.v` | D F |
| C34 | `C34_order_refuted` | `PropertiesMultinomial.v` | D F |
| C34 | `C34_raises_refuted` | `PropertiesMultinomial.v` | D F |
| C35 | `C35_conditional` | `PropertiesMultinomial.v` | C D F N |
| C35 | `C35_mode` | `PropertiesMultinomial.v` | C D F N |
| C35 | `C35_circuit_likelihood` | `PropertiesMultinomial.v` | C D F N |
| C35 | `C35_circuit_probability_partial` | `PropertiesMultinomial.v` | C D F N |
| C35 | `C35_circuit_refuted` | `PropertiesMultinomial.v` | C D F N |
| C36 | `C36_deterministic_sum` | `PropertiesMixture.v` | C D F N |
| C36 | `C36_from_mixture_partial` | `PropertiesMixture.v` | C D F N |
| C36 | `C36_round_trip_partial` | `PropertiesMixture.v` | C D F N |
| C36 | `C36_refuted` | `PropertiesMixture.v` | C D F N |
| C37 | `C37_interaction_partial` | `PropertiesInteraction.v` | C D F N |
| C37 | `C37_refuted` | `PropertiesInteraction.v` | C D F N |
| C38 | `C38_bayesian_network_partial` | `PropertiesBayes.v` | C D F N |
| C38 | `C38_refuted` | `PropertiesBayes.v` | C D F N |
| C38 | `C38_edges_refuted` | `PropertiesBayes.v` | C D F N |
| C39 | `C39_forward_partial` | `PropertiesForward.v` | C D F N |
| C39 | `C39_messages_refuted` | `PropertiesForward.v` | C D F N |
| C39 | `C39_probabilities_refuted` | `PropertiesForward.v` | C D F N |
| C40 | `C40_nyga_partial` | `PropertiesNyga.v` | C D F N |
| C40 | `C40_nyga_weights_partial` | `PropertiesNyga.v` | C D F N |
| C40 | `C40_refuted` | `PropertiesNyga.v` | C D F N |
| C41 | `C41_from_uniform_mixture` | `PropertiesUniform.v` | C D F N |
| C42 | `C42_jpt_partition_partial` | `PropertiesJpt.v` | C D F N |
| C42 | `C42_refuted` | `PropertiesJpt.v` | C D F N |
| C43 | `C43_max_leaves_partial` | `PropertiesJpt.v` | C D F N |
| C43 | `C43_refuted` | `PropertiesJpt.v` | C D F N |
| C44 | `C44_isolated_partial` | `PropertiesJpt.v` | C D F N |
| C44 | `C44_refuted` | `PropertiesJpt.v` | C D F N |
| C45 | `C45_targets_and_features` | `PropertiesJptParams.v` | none |
| C46 | `C46_json_partial` | `PropertiesJptParams.v` | none |
| C46 | `C46_copy_partial` | `PropertiesJptParams.v` | D F |
| C46 | `C46_json_refuted` | `PropertiesJptParams.v` | D F |
| C46 | `C46_copy_refuted` | `PropertiesJptParams.v` | D F |
| C46 | `C46_copy_samples_refuted` | `PropertiesJptParams.v` | D F |
| C47 | `C47_encode_decode` | `PropertiesJptParams.v` | D F |
| C47 | `C47_standardised` | `PropertiesJptParams.v` | D F |
| C48 | `C48_random_partition` | `PropertiesRegion.v` | none |
| C48 | `C48_region_graph` | `PropertiesRegion.v` | none |
| C49 | `C49_conversion_partial` | `PropertiesRegion.v` | C D F N |
| C49 | `C49_refuted` | `PropertiesRegion.v` | C D F N |
| C50 | `C50_sparse_sum_layer` | `PropertiesJaxLayer.v` | C D F N |
| C50 | `C50_dense_sum_layer` | `PropertiesJaxLayer.v` | C D F N |
| C50 | `C50_normalized_weights` | `PropertiesJaxLayer.v` | C D F N |
| C51 | `C51_columns_partial` | `PropertiesJaxLayer.v` | C D F N |
| C51 | `C51_refuted` | `PropertiesJaxLayer.v` | C D F N |
| C52 | `C52_indices_partial` | `PropertiesJaxUtils.v` | none |
| C52 | `C52_refuted` | `PropertiesJaxUtils.v` | none |
| C53 | `C53_shrink` | `PropertiesJaxUtils.v` | none |
| C53 | `C53_order_isomorphism` | `PropertiesJaxUtils.v` | none |
| C54 | `C54_to_nx_partial` | `PropertiesJaxConvert.v` | C D F N |
| C54 | `C54_to_nx_likelihood_partial` | `PropertiesJaxConvert.v` | C D F N |
| C54 | `C54_to_nx_refuted` | `PropertiesJaxConvert.v` | C D F N |
| C54 | `C54_from_nx_partial` | `PropertiesJaxFromNx.v` | C D F N |
| C54 | `C54_from_nx_density_partial` | `PropertiesJaxFromNx.v` | C D F N |
| C54 | `C54_from_nx_total_partial` | `PropertiesJaxFromNx.v` | C D F N |
| C54 | `C54_from_nx_likelihood_partial` | `PropertiesJaxRoundTrip.v` | C D F N |
| C54 | `C54_round_trip_partial` | `PropertiesJaxRoundTrip.v` | C D F N |
| C54 | `C54_from_nx_refuted` | `PropertiesJaxFromNx.v` | C D F N |
| C54 | `C54_duplicates_added` | `PropertiesJaxFromNx.v` | none |
| C54 | `C54_unknown_variable` | `PropertiesJaxConvert.v` | C D F N |
| C54 | `C54_circuit_partial` | `PropertiesJaxConvert.v` | C D F N |
| C54 | `C54_states_written` | `PropertiesJaxFromNx.v` | D |
| C54 | `C54_states_read` | `PropertiesJaxFromNx.v` | D |
| C54 | `C54_states_evaluated` | `PropertiesJaxFromNx.v` | C D F N |
| C55 | `C55_slices` | `PropertiesCoupling.v` | none |
| C55 | `C55_slices_lossless` | `PropertiesCoupling.v` | none |
| C55 | `C55_rebuild_partial` | `PropertiesCoupling.v` | none |
| C55 | `C55_own_conditioner_partial` | `PropertiesCoupling.v` | C D F N |
| C55 | `C55_parameters_partial` | `PropertiesCoupling.v` | none |
| C55 | `C55_conditioner_partial` | `PropertiesCoupling.v` | C D F N |
| C55 | `C55_refuted` | `PropertiesCoupling.v` | D |
| C55 | `C55_validate_partial` | `PropertiesCoupling.v` | none |
| C55 | `C55_matrix` | `PropertiesCoupling.v` | none |
| C55 | `C55_dense` | `PropertiesCoupling.v` | none |
| C55 | `C55_dense_entries` | `PropertiesCoupling.v` | none |
| C56 | `C56_circuit_partial` | `PropertiesClassification.v` | C D F N |
| C56 | `C56_refuted` | `PropertiesClassification.v` | C D F N |
| C56 | `C56_loss_refuted` | `PropertiesClassification.v` | C D F N |
| C56 | `C56_loss_partial` | `PropertiesClassification.v` | C D F N |
| C56 | `C56_loss_ignores_samples` | `PropertiesClassification.v` | C D F N |
| C56 | `C56_generative_loss` | `PropertiesClassification.v` | C D F N |
| C57 | `C57_characterised` | `PropertiesShallow.v` | D F N |
| C57 | `C57_probability` | `PropertiesShallow.v` | C D F N |
| C57 | `C57_proportional_partial` | `PropertiesShallow.v` | C D F N |
| C57 | `C57_leaf_partial` | `PropertiesShallow.v` | C D F N |
| C57 | `C57_proportional_refuted` | `PropertiesShallow.v` | C D F N |
| C57 | `C57_shallow_refuted` | `PropertiesShallow.v` | C D F N |
| C58 | `C58_uniform_partial` | `PropertiesUniformMeasure.v` | C D F N |
| C58 | `C58_uniform_refuted` | `PropertiesUniformMeasure.v` | C D F N |
| C59 | `C59_variance_answer` | `PropertiesVariance.v` | C D F N |
| C59 | `C59_variance_partial` | `PropertiesVariance.v` | C D F N |
| C59 | `C59_dirac` | `PropertiesVariance.v` | C D F N |
| C59 | `C59_refuted` | `PropertiesVariance.v` | C D F N |
| C60 | `C60_bounded` | `PropertiesMonteCarlo.v` | D F |
| C60 | `C60_no_samples` | `PropertiesMonteCarlo.v` | none |
| C60 | `C60_raises` | `PropertiesMonteCarlo.v` | D F |
| C60 | `C60_of_event` | `PropertiesMonteCarlo.v` | D F |
| C60 | `C60_unbiased` | `PropertiesMonteCarlo.v` | D F |
| C60 | `C60_distance` | `PropertiesMonteCarlo.v` | D F |
| C60 | `C60_uniform_nonnegative` | `PropertiesMonteCarlo.v` | D F |
| C60 | `C60_uniform_distance` | `PropertiesMonteCarlo.v` | D F |
| C61 | `C61_jpt_valid` | `PropertiesJptModel.v` | C D F N |
| C61 | `C61_jpt_total` | `PropertiesJptModel.v` | C D F N |
| C61 | `C61_refuted` | `PropertiesJptModel.v` | C D F N |
| C62 | `C62_dirac_partial` | `PropertiesJptModel.v` | C D F N |
| C62 | `C62_refuted` | `PropertiesJptModel.v` | C D F N |
| C63 | `C63_remove_partial` | `PropertiesJaxUtils.v` | none |
| C63 | `C63_refuted` | `PropertiesJaxUtils.v` | none |
| C64 | `C64_law` | `PropertiesTruncSample.v` | C D F N |
| C64 | `C64_samples` | `PropertiesTruncSample.v` | D F N |
| C64 | `C64_within` | `PropertiesTruncSample.v` | D F N |
| C64 | `C64_no_error` | `PropertiesTruncSample.v` | C D F N |
| C64 | `C64_law_partial` | `PropertiesTruncSample.v` | C D F N |
| C64 | `C64_one_sided` | `PropertiesTruncSample.v` | C D F N |
| C64 | `C64_full_refuted` | `PropertiesTruncSample.v` | C D F N |
| C64 | `C64_far_off` | `PropertiesTruncSample.v` | C D F N |
| C65 | `C65_raises` | `PropertiesHelpers.v` | C D F N |
| C65 | `C65_untouched` | `PropertiesHelpers.v` | C D F N |
| C65 | `C65_left_behind` | `PropertiesHelpers.v` | C D F N |
| C65 | `C65_refuted` | `PropertiesHelpers.v` | C D F N |
| C66 | `C66_structure` | `PropertiesHelpers.v` | C D F N |
| C66 | `C66_weights_lost` | `PropertiesHelpers.v` | C D F N |
| C66 | `C66_refuted` | `PropertiesHelpers.v` | C D F N |
| C67 | `C67_l1_partial` | `PropertiesL1.v` | C D F N |
| C67 | `C67_exact_partial` | `PropertiesL1.v` | C D F N |
| C67 | `C67_metric_partial` | `PropertiesL1.v` | C D F N |
| C67 | `C67_l1_refuted` | `PropertiesL1.v` | C D F N |
| C67 | `C67_difference` | `PropertiesL1.v` | D F |
| C68 | `C68_sound` | `PropertiesNodeWeights.v` | D F |
| C68 | `C68_layered_partial` | `PropertiesNodeWeights.v` | D F |
| C68 | `C68_ones_partial` | `PropertiesNodeWeights.v` | D F |
| C68 | `C68_weights_refuted` | `PropertiesNodeWeights.v` | C D F N |
| C68 | `C68_paths_refuted` | `PropertiesNodeWeights.v` | D |
| C69 | `C69_minimal_distance` | `PropertiesJptData.v` | D F |
| C69 | `C69_infer` | `PropertiesJptData.v` | D F N |
| C69 | `C69_refused` | `PropertiesJptData.v` | D F N |
| C70 | `C70_preprocess_partial` | `PropertiesJptData.v` | D F N |
| C70 | `C70_standardised_partial` | `PropertiesJptData.v` | D F N |
| C70 | `C70_preprocess_refuted` | `PropertiesJptData.v` | D F N |
| C70 | `C70_shape` | `PropertiesJptData.v` | D F |
| C71 | `C71_factorized_partial` | `PropertiesFullyFactorized.v` | C D F N |
| C71 | `C71_standard_partial` | `PropertiesFullyFactorized.v` | C D F N |
| C71 | `C71_moments` | `PropertiesFullyFactorized.v` | C D F N |
| C71 | `C71_integer_refused` | `PropertiesFullyFactorized.v` | D F |
| C71 | `C71_factorized_refuted` | `PropertiesFullyFactorized.v` | C D F N |
| C72 | `C72_is_valid` | `PropertiesGraphValid.v` | none |
| C72 | `C72_empty` | `PropertiesGraphValid.v` | none |
| C72 | `C72_rooted` | `PropertiesGraphValid.v` | none |
| C72 | `C72_trees` | `PropertiesGraphValid.v` | none |
| C73 | `C73_components_partial` | `PropertiesJaxComponents.v` | C D F N |
| C73 | `C73_sound` | `PropertiesJaxComponents.v` | C D F N |
| C73 | `C73_refuted` | `PropertiesJaxComponents.v` | C D F N |
| C73 | `C73_depth` | `PropertiesJaxComponents.v` | none |
| C74 | `C74_hybrid_network_partial` | `PropertiesBayesHybrid.v` | C D F N |
| C74 | `C74_refuted` | `PropertiesBayesHybrid.v` | C D F N |
| C75 | `C75_from_unit_partial` | `PropertiesBayesFromUnit.v` | C D F N |
| C75 | `C75_mixture_partial` | `PropertiesBayesFromUnit.v` | C D F N |
| C75 | `C75_refuted` | `PropertiesBayesFromUnit.v` | C D F N |
| C76 | `C76_equality` | `PropertiesDistEq.v` | D F |
| C76 | `C76_equivalence` | `PropertiesDistEq.v` | D F |
| C76 | `C76_answers_partial` | `PropertiesDistEq.v` | C D F N |
| C76 | `C76_ordered_partial` | `PropertiesDistEq.v` | C D F N |
| C76 | `C76_hash_refuted` | `PropertiesDistEq.v` | D F |
| C76 | `C76_unhashable` | `PropertiesDistEq.v` | none |
| C76 | `C76_cdf_refuted` | `PropertiesDistEq.v` | D F N |
| C76 | `C76_refuted` | `PropertiesDistEq.v` | C D F N |
| C77 | `C77_close_partial` | `PropertiesDistEq.v` | D F |
| C77 | `C77_reflexive` | `PropertiesDistEq.v` | D F |
| C77 | `C77_not_symmetric` | `PropertiesDistEq.v` | D F |
| C77 | `C77_not_transitive` | `PropertiesDistEq.v` | D F |
| C77 | `C77_refuted` | `PropertiesDistEq.v` | D F |
| C78 | `C78_roundtrip_partial` | `PropertiesJaxJson.v` | C D F N |
| C78 | `C78_identical_partial` | `PropertiesJaxJson.v` | F |
| C78 | `C78_raises_exactly` | `PropertiesJaxJson.v` | F |
| C78 | `C78_injective_partial` | `PropertiesJaxJson.v` | C D F N |
| C78 | `C78_refuted` | `PropertiesJaxJson.v` | C D F N |
| C79 | `C79_fit` | `PropertiesMultinomialFit.v` | C D F N |
| C79 | `C79_forgets` | `PropertiesMultinomialFit.v` | D F |
| C79 | `C79_outside` | `PropertiesMultinomialFit.v` | D F |
| C79 | `C79_no_data` | `PropertiesMultinomialFit.v` | D F |
| C79 | `C79_negative` | `PropertiesMultinomialFit.v` | D F |
| C80 | `C80_roundtrip` | `PropertiesMultinomialFit.v` | none |
| C81 | `C81_marginal_partial` | `PropertiesJptMarginal.v` | C D F N |
| C81 | `C81_continuous_partial` | `PropertiesJptMarginal.v` | C D F N |
| C81 | `C81_discrete_partial` | `PropertiesJptMarginal.v` | C D F N |
| C81 | `C81_unsimplified` | `PropertiesJptMarginal.v` | C D F N |
| C81 | `C81_none` | `PropertiesJptMarginal.v` | C D F N |
| C81 | `C81_fitted_partial` | `PropertiesJptMarginal.v` | C D F N |
| C81 | `C81_refuted` | `PropertiesJptMarginal.v` | C D F N |
| C82 | `C82_ranges` | `PropertiesRegionParameters.v` | C D F N |
| C82 | `C82_repeated` | `PropertiesRegionParameters.v` | C D F N |
| C82 | `C82_refuted` | `PropertiesRegionParameters.v` | C D F N |
| C83 | `C83_simplify` | `PropertiesRefine.v` | C D F N |
| C83 | `C83_normalize` | `PropertiesRefine.v` | C D F N |
| C83 | `C83_marginal_in_place` | `PropertiesRefine.v` | C D F N |
| C83 | `C83_conditional_in_place` | `PropertiesRefine.v` | C D F N |
| C83 | `C83_marginal` | `PropertiesRefine.v` | C D F N |
| C83 | `C83_probability_partial` | `PropertiesRefine.v` | C D F N |
| C83 | `C83_conditional_partial` | `PropertiesRefine.v` | C D F N |
| C83 | `C83_event_partial` | `PropertiesRefine.v` | C D F N |
| C83 | `C83_event_in_place_partial` | `PropertiesRefine.v` | C D F N |
| C83 | `C83_impossible_event` | `PropertiesRefine.v` | C D F N |
| C84 | `C84_samples` | `PropertiesRejection.v` | C D F N |
| C84 | `C84_within` | `PropertiesRejection.v` | C D F N |
| C84 | `C84_ends` | `PropertiesRejection.v` | C D F N |
| C84 | `C84_law` | `PropertiesRejection.v` | C D F N |
| C85 | `C85_rows` | `PropertiesSparseSample.v` | D F |
| C85 | `C85_law` | `PropertiesSparseSample.v` | D F |
| C85 | `C85_short` | `PropertiesSparseSample.v` | D F |
| C86 | `C86_embed` | `PropertiesJaxUtils.v` | none |
| C87 | `C87_arguments` | `PropertiesJptImpurity.v` | D F |
| C88 | `C88_without_split` | `PropertiesNygaSplit.v` | C D F N |
| C88 | `C88_of_split` | `PropertiesNygaSplit.v` | C D F N |
| C88 | `C88_decision` | `PropertiesNygaSplit.v` | C D F N |
| C88 | `C88_fit` | `PropertiesNygaSplit.v` | C D F N |
| C89 | `C89_quantiles_histogram` | `PropertiesNygaHistogram.v` | C D F N |
| C89 | `C89_histogram` | `PropertiesNygaHistogram.v` | C D F N |
| C90 | `C90_groups` | `PropertiesJptFrequency.v` | C D F N |
| C90 | `C90_frequency` | `PropertiesJptFrequency.v` | C D F N |
| C91 | `C91_likelihood_partial` | `PropertiesJptLikelihood.v` | C D F N |
| C91 | `C91_discrete_partial` | `PropertiesJptLikelihood.v` | C D F N |
| C91 | `C91_refuted` | `PropertiesJptLikelihood.v` | C D F N |
| C92 | `C92_validated_partial` | `PropertiesJaxValidate.v` | C D F N |
| C92 | `C92_refuted` | `PropertiesJaxValidate.v` | C D F N |
| C92 | `C92_edges` | `PropertiesJaxValidate.v` | D F |
| C93 | `C93_moment_partial` | `PropertiesJptMoment.v` | C D F N |
| C93 | `C93_expectation_partial` | `PropertiesJptMoment.v` | C D F N |
| C93 | `C93_variance_partial` | `PropertiesJptMoment.v` | C D F N |
| C93 | `C93_symbols_raise` | `PropertiesJptMoment.v` | C D F N |
| C93 | `C93_refuted` | `PropertiesJptMoment.v` | C D F N |
| C94 | `C94_rows` | `PropertiesBayesFromMulti.v` | C D F N |
| C94 | `C94_table_partial` | `PropertiesBayesFromMulti.v` | C D F N |
| C94 | `C94_joint_partial` | `PropertiesBayesFromMulti.v` | C D F N |
| C94 | `C94_circuit_partial` | `PropertiesBayesFromMulti.v` | C D F N |
| C94 | `C94_impossible` | `PropertiesBayesFromMulti.v` | C D F N |
| C94 | `C94_int` | `PropertiesBayesFromMulti.v` | C D F N |
| C94 | `C94_assertions` | `PropertiesBayesFromMulti.v` | C D F N |
| C94 | `C94_impossible_refuted` | `PropertiesBayesFromMulti.v` | C D F N |
| C94 | `C94_names_refuted` | `PropertiesBayesFromMulti.v` | C D F N |
| C94 | `C94_again` | `PropertiesBayesFromMulti.v` | C D F N |
<!-- assumptions end -->

## Simplifications, by part of the model

* **Numbers**: no rounding, overflow or underflow. In particular float32 arithmetic of the layered circuits, the
  `nextafter` of the open ends of uniform layers and the clipping that only guards against rounding are idealised.
  The open-end mode of a truncated Gaussian that the code reaches by `nextafter` does not exist over the reals.
* **Events**: `random_events` is external. A set of a continuous or integer variable is a list of intervals, a set of a
  symbolic variable a list of element hashes. `fill_missing_variables` and `make_disjoint` are not represented; where
  the code needs a union or a bounding box it is an argument under a contract.
* **Circuits**: a unit is a number; the graph keeps networkx's insertion orders. Sets whose iteration order Python leaves
  open are arguments. Circuits that the code builds from new units are numbered in creation order.
* **Empty arrays**: `scipy.special.logsumexp` of an empty array raises (newer scipy versions answer minus infinity);
  only sum units without children meet this case.
* **Histories** (`World`): a call that raises ends the modelled history. `h_translate` and `h_scale` give the state that is
  left, not the exception.
* **Sampling**: the counts drawn by the multinomial, the shuffles and the leaf samples are arguments; the values of the
  leaf samples are not modelled, only who writes which cell. For truncated Gaussians the leaf sampler itself is modelled
  (`TruncSample`): numpy's generator is a stream of reals in [0, 1]; laws are integrals over two independent uniform
  numbers; `scipy.stats.norm.rvs` is not modelled; comparisons and `exp` are exact.
* **Moments**: `math.gamma` and `gamma.cdf` are defined at half-integers and proved to be the usual integrals; a truncated Gaussian
  whose normalising constant is zero has no moment. A childless inner unit raises at once.
* **Hashes**: Python's `hash` of elements is an argument, except where the code applies it to numbers
  (`hash(-1) = -2`).
* **Multinomials, mixtures, interaction**: tables are functions of index tuples. The interaction model is given by its
  answers; the assertion on latent variables is not represented.
* **Bayesian networks**: visited along the tree instead of in breadth-first order.
* **Nyga**: data are finite real numbers; a distribution is fitted once; a step without a split index raises at once.
* **Joint probability trees**: the compiled impurity computation is an argument under a contract (it reorders the samples
  of its range and returns a split position); variables are names with kinds; `preprocess_data` is not modelled; the
  fitted circuit is the layout of its tree; running out of fuel is an interruption between two steps.
* **Layered circuits**: layers are trees of layers; gathers clamp and scatters drop as documented by jax; broadcasting
  only where the code relies on it.
* **to_nx**: a progress bar is only present or absent; units are numbered by insertion.
* **from_nx**: the orders of Python's sets, the neighbours of a float and the sizes of domains are arguments; a weight matrix
  without entries counts as an exception.
* **Region graphs**: variables are positions; `shuffle` and `uniform` are arguments.
* **Coupling circuits**: parameters are the inexact, non-static arrays; a rebuild of the wrong rank is `None`.
* **Classification circuits**: cached variables are recomputed; the optimiser is not modelled.
* **Fitting multinomials**: rows are real numbers cut to integers; a row that does not have one entry per variable raises; assigning twice to one entry keeps the last value.
* **JSON of layered circuits**: numbers survive unchanged; reading an empty list where a matrix is needed counts as an exception although Python fails for some layers only on use; the `indices_sorted` and `unique_indices` flags, which reading always sets, are not represented.
* **Monte-Carlo estimators**: the samples are given and models are known by their likelihoods.
* **Conditioning on events**: the copies that are mounted below the new sum unit are numbered apart.
* **Uniform measures**: the circuit is the layout of its tree; non-integer bounds of integer variables are not represented.
* **Shallow circuits**: the attribute `"weight"` that the code looks up is never present (nothing writes it); the
  copy keeps the numbers of the units; recursion has fuel.
* **Helpers**: the order of `self.leaves` (a set) is a parameter, any permutation; an exception is reported with the graph it
  leaves behind.
* **L1 metric**: differences and unions of events have one implementation with disjoint boxes, as random_events promises; a
  variable without an assignment is a real one; centres of unbounded intervals and of symbols answer None; every query starts
  from the same stored results.
* **Node weights**: the dictionary maps units instead of their hashes; the attribute that is read is a parameter.
* **JPT marginals**: work on the circuit itself instead of a copy (copies are modelled in `Copy`); the class of the returned circuit is
  not modelled.
* **JPT data**: entries are reals, integers or strings without missing values; strings are numbered in their order; symbolic
  domains are enumerated in the order of their values.
* **Fully factorized circuits**: the circuit is the layout of its tree, fresh units are numbered in order.
* **Validity**: the algorithms of networkx are modelled as they are published; dictionaries are lists in insertion order.
* **Size of layers**: the number of stored elements of a sparse matrix is the number of its entries.
* **Circuit nodes of Bayesian networks**: they have no child nodes; their circuits are trees that share no units; the network is
  converted once (the conversion works in place on the circuits of the node).

## Not modelled

Plotting, draw.io / mlflow export, error messages, type hints, gradient training, the compiled impurity code itself,
random number generator quality, `src/utils.py` apart from `MissingDict` and the interval arrays,
the template circuits and examples, `subcircuit_index_of_samples` (it compares the result of a method that returns nothing, so it raises for every
sum unit with subcircuits), the density-comparison events of Nyga distributions.
