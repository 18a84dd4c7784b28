{"id": "C01", "title": "Circuit likelihood equals the mixture-of-products density", "statement": "For every probabilistic circuit, log_likelihood(x) is the logarithm of the value obtained by recursively evaluating the circuit from its root: a leaf contributes its own density at x, a sum unit the exp(log_weight)-weighted sum of its children and a product unit the product of its children; this holds whatever queries were answered by the circuit before.", "quantifier": "all finite rooted acyclic circuits (including shared sub-circuits of any depth), all query points, and all leftover results of previous queries", "why_tests_cant": "The set of circuits and the set of earlier query histories are both infinite; the evaluation order depends on shortest-path depth, which only matters on DAG shapes no test builds.", "anchors": ["src/probabilistic_model/probabilistic_circuit/nx/probabilistic_circuit.py:ProbabilisticCircuit.log_likelihood", "src/probabilistic_model/probabilistic_circuit/nx/probabilistic_circuit.py:SumUnit.log_forward", "src/probabilistic_model/probabilistic_circuit/nx/probabilistic_circuit.py:ProductUnit.log_forward", "src/probabilistic_model/probabilistic_circuit/nx/probabilistic_circuit.py:ProbabilisticCircuit.layers"]}
{"id": "C02", "title": "Circuit probability and cdf equal the recursive evaluation", "statement": "For every circuit, probability_of_simple_event(e) and cdf(x) return the recursive weighted-sum / product evaluation of the leaf probabilities (cdf values), independently of results left over from earlier queries.", "quantifier": "all finite rooted acyclic circuits, all simple events / points, all earlier query histories", "why_tests_cant": "As for C01; infinitely many circuits and histories.", "anchors": ["src/probabilistic_model/probabilistic_circuit/nx/probabilistic_circuit.py:ProbabilisticCircuit.probability_of_simple_event", "src/probabilistic_model/probabilistic_circuit/nx/probabilistic_circuit.py:ProbabilisticCircuit.cdf", "src/probabilistic_model/probabilistic_circuit/nx/probabilistic_circuit.py:SumUnit.forward", "src/probabilistic_model/probabilistic_circuit/nx/probabilistic_circuit.py:ProductUnit.forward"]}
{"id": "C03", "title": "Probability is a probability measure", "statement": "For a smooth, decomposable circuit with normalised sum units and normalised leaves, probability() of any simple event lies in [0,1], is 1 on the whole domain, is monotone in the event and additive when one variable's assignment is split into disjoint parts.", "quantifier": "all such circuits and all simple events", "why_tests_cant": "Quantifies over all events (intervals with arbitrary real bounds) and all circuits.", "anchors": ["src/probabilistic_model/probabilistic_model.py:ProbabilisticModel.probability", "src/probabilistic_model/probabilistic_circuit/nx/probabilistic_circuit.py:ProbabilisticCircuit.probability_of_simple_event", "src/probabilistic_model/distributions/distributions.py:ContinuousDistribution.probability_of_simple_event"]}
{"id": "C04", "title": "Interval probability depends only on the set of points", "statement": "Two interval assignments (disjoint unions of simple intervals) that contain the same points get the same probability under every continuous univariate distribution, no matter how the union is cut into simple intervals and which shared end points are open or closed.", "quantifier": "all monotone cdfs and all pairs of finite disjoint interval unions", "why_tests_cant": "Infinitely many representations of one set.", "anchors": ["src/probabilistic_model/distributions/distributions.py:ContinuousDistribution.probability_of_simple_event", "src/probabilistic_model/utils.py:interval_as_array"]}
{"id": "C05", "title": "cdf is consistent with probability", "statement": "For every circuit over continuous or integer variables, cdf(x) equals the probability of the event that every variable is less than or equal to its coordinate of x.", "quantifier": "all circuits whose leaves are uniform, Dirac, Gaussian or integer distributions, all points", "why_tests_cant": "Ranges over all points and all circuits; the integer cdf additionally depends on the insertion order of a dictionary.", "anchors": ["src/probabilistic_model/probabilistic_circuit/nx/probabilistic_circuit.py:ProbabilisticCircuit.cdf", "src/probabilistic_model/distributions/distributions.py:IntegerDistribution.cdf", "src/probabilistic_model/distributions/distributions.py:DiracDeltaDistribution.cdf", "src/probabilistic_model/distributions/uniform.py:UniformDistribution.cdf"]}
{"id": "C06", "title": "Uniform distribution calculus is exact", "statement": "For every non-degenerate interval a uniform distribution's density is 1/(upper-lower) inside and 0 outside, its cdf is the integral of the density, its total mass is 1, and moment(n, c) equals the integral of (x-c)^n times the density.", "quantifier": "all intervals with lower < upper, all points, all orders n, all centers c", "why_tests_cant": "Equality of functions and integrals over the reals.", "anchors": ["src/probabilistic_model/distributions/uniform.py:UniformDistribution", "src/probabilistic_model/distributions/distributions.py:ContinuousDistributionWithFiniteSupport"]}
{"id": "C07", "title": "Truncating a uniform distribution is conditioning", "statement": "For a uniform distribution and a non-singleton interval of positive probability inside its support, the conditional distribution assigns every interval A the probability P(A and E)/P(E), and the reported log probability is log P(E).", "quantifier": "all uniform distributions, all condition intervals, all query intervals", "why_tests_cant": "Real-valued bounds; infinite domain.", "anchors": ["src/probabilistic_model/distributions/uniform.py:UniformDistribution.log_conditional_from_non_singleton_simple_interval", "src/probabilistic_model/distributions/distributions.py:ContinuousDistribution.log_conditional"]}
{"id": "C08", "title": "Conditioning returns the probability of the event", "statement": "conditional(event) of a circuit returns a probability equal to probability(event), and returns None exactly when that probability is zero.", "quantifier": "all circuits and all events, including events that contain isolated points", "why_tests_cant": "Infinite event and circuit space; singletons are measure-zero corner cases.", "anchors": ["src/probabilistic_model/probabilistic_circuit/nx/probabilistic_circuit.py:ProbabilisticCircuit.log_conditional", "src/probabilistic_model/probabilistic_circuit/nx/probabilistic_circuit.py:ProbabilisticCircuit.log_conditional_of_simple_event_in_place", "src/probabilistic_model/distributions/distributions.py:ContinuousDistribution.log_conditional_from_singleton"]}
{"id": "C09", "title": "Conditioning follows Bayes' rule", "statement": "If (q, p) = circuit.conditional(E) with p > 0 then for every event A: q.probability(A) = circuit.probability(A and E) / p.", "quantifier": "all circuits, all events E of positive probability, all query events A", "why_tests_cant": "Requires all circuits and pairs of events; unit tests only check the structure of the result or P(E|E) = 1.", "anchors": ["src/probabilistic_model/probabilistic_circuit/nx/probabilistic_circuit.py:ProbabilisticCircuit.log_conditional_of_simple_event_in_place", "src/probabilistic_model/probabilistic_circuit/nx/probabilistic_circuit.py:SumUnit.normalize", "src/probabilistic_model/probabilistic_circuit/nx/distributions/distributions.py:UnivariateContinuousLeaf.univariate_log_conditional_of_simple_event_in_place"]}
{"id": "C10", "title": "The conditional circuit is concentrated on the event", "statement": "If (q, p) = circuit.conditional(E) with p > 0 then q is a normalised circuit and q.probability(E) = 1.", "quantifier": "all tree-shaped circuits and all simple events of positive probability", "why_tests_cant": "Infinite circuit and event space.", "anchors": ["src/probabilistic_model/probabilistic_circuit/nx/probabilistic_circuit.py:ProbabilisticCircuit.log_conditional_of_simple_event_in_place", "src/probabilistic_model/probabilistic_circuit/nx/probabilistic_circuit.py:ProbabilisticCircuit.normalize"]}
{"id": "C11", "title": "Queries that return a new model leave the receiver unchanged", "statement": "conditional, log_conditional and marginal of a circuit do not change the receiving circuit: afterwards it has the same units, the same edges and weights and answers every query as before.", "quantifier": "all circuits, all events / variable sets", "why_tests_cant": "Aliasing between copies is a property of all later histories.", "anchors": ["src/probabilistic_model/probabilistic_circuit/nx/probabilistic_circuit.py:ProbabilisticCircuit.log_conditional", "src/probabilistic_model/probabilistic_circuit/nx/probabilistic_circuit.py:ProbabilisticCircuit.marginal", "src/probabilistic_model/probabilistic_circuit/nx/probabilistic_circuit.py:ProbabilisticCircuit.__copy__", "src/probabilistic_model/distributions/distributions.py:DiscreteDistribution.__copy__"]}
{"id": "C12", "title": "Marginalisation drops exactly the other variables", "statement": "marginal(V) of a circuit is None iff no variable of V occurs in the circuit; otherwise its variables are exactly the circuit's variables in V and the probability it assigns to an event over V equals the original probability of that event extended by the full domain for all other variables.", "quantifier": "all normalised tree-shaped circuits, all variable sets V, all events", "why_tests_cant": "All circuits, all subsets of variables.", "anchors": ["src/probabilistic_model/probabilistic_circuit/nx/probabilistic_circuit.py:ProbabilisticCircuit.marginal_in_place", "src/probabilistic_model/probabilistic_circuit/nx/probabilistic_circuit.py:LeafUnit.marginal", "src/probabilistic_model/probabilistic_circuit/nx/probabilistic_circuit.py:InnerUnit.marginal"]}
{"id": "C13", "title": "simplify preserves the distribution", "statement": "simplify() does not change the result of any likelihood or probability query of the circuit.", "quantifier": "all normalised circuits, including circuits with shared sub-circuits, and all queries", "why_tests_cant": "In-place graph surgery whose effect depends on sharing; infinitely many graphs.", "anchors": ["src/probabilistic_model/probabilistic_circuit/nx/probabilistic_circuit.py:ProbabilisticCircuit.simplify", "src/probabilistic_model/probabilistic_circuit/nx/probabilistic_circuit.py:SumUnit.simplify", "src/probabilistic_model/probabilistic_circuit/nx/probabilistic_circuit.py:ProductUnit.simplify"]}
{"id": "C14", "title": "simplify produces an alternating circuit", "statement": "After simplify() no sum unit has a sum unit as child and no product unit has a product unit as child.", "quantifier": "all circuits", "why_tests_cant": "All nestings of units.", "anchors": ["src/probabilistic_model/probabilistic_circuit/nx/probabilistic_circuit.py:Unit.simplify", "src/probabilistic_model/probabilistic_circuit/nx/probabilistic_circuit.py:SumUnit.simplify", "src/probabilistic_model/probabilistic_circuit/nx/probabilistic_circuit.py:ProductUnit.simplify"]}
{"id": "C15", "title": "A circuit has one root and simplify keeps it that way", "statement": "A valid circuit with a unique root still has a unique root after simplify().", "quantifier": "all rooted circuits, including those with zero-weight (log weight -inf) edges", "why_tests_cant": "All circuits; zero-probability edges are a corner case that arises from converting discrete distributions.", "anchors": ["src/probabilistic_model/probabilistic_circuit/nx/probabilistic_circuit.py:ProbabilisticCircuit.root", "src/probabilistic_model/probabilistic_circuit/nx/probabilistic_circuit.py:SumUnit.simplify", "src/probabilistic_model/probabilistic_circuit/nx/distributions/distributions.py:UnivariateDiscreteLeaf.as_deterministic_sum"]}
{"id": "C16", "title": "normalize makes every sum unit a convex combination", "statement": "After normalize() the weights of every sum unit are non-negative and sum to one, and all ratios between weights of one sum unit are unchanged, provided each sum unit had positive total weight before.", "quantifier": "all circuits and all weight vectors", "why_tests_cant": "All real weight vectors of all lengths.", "anchors": ["src/probabilistic_model/probabilistic_circuit/nx/probabilistic_circuit.py:SumUnit.normalize", "src/probabilistic_model/probabilistic_circuit/nx/probabilistic_circuit.py:ProbabilisticCircuit.normalize"]}
{"id": "C17", "title": "Sampling fills every cell from exactly one leaf", "statement": "sample(n) returns an n-row array in which every cell (row, variable) is written exactly once, by a leaf over that variable, and all leaves that write one row belong to one selection of children (exactly one child of each visited sum unit, all children of each visited product unit).", "quantifier": "all layered smooth decomposable circuits, all n, all outcomes of the random count draws and of the shuffles", "why_tests_cant": "Universally quantified over random outcomes and circuits.", "anchors": ["src/probabilistic_model/probabilistic_circuit/nx/probabilistic_circuit.py:ProbabilisticCircuit.sample", "src/probabilistic_model/probabilistic_circuit/nx/probabilistic_circuit.py:SumUnit.sample", "src/probabilistic_model/probabilistic_circuit/nx/probabilistic_circuit.py:ProductUnit.sample", "src/probabilistic_model/probabilistic_circuit/nx/probabilistic_circuit.py:LeafUnit.sample"]}
{"id": "C18", "title": "Rows of a sample can realise every combination of components", "statement": "For a product of two mixtures with k and m components every one of the k*m component combinations can occur within one sample of sufficiently many rows (rows are drawn independently).", "quantifier": "all sample sizes and random outcomes", "why_tests_cant": "A statement about all random outcomes at once; statistical tests only see marginals.", "anchors": ["src/probabilistic_model/probabilistic_circuit/nx/probabilistic_circuit.py:SumUnit.sample", "src/probabilistic_model/probabilistic_circuit/nx/probabilistic_circuit.py:ProductUnit.sample"]}
{"id": "C19", "title": "JSON round trip is lossless", "statement": "from_json(to_json(circuit)) yields a circuit with the same units in the same order, the same edges and the same log weights, and answering every query identically.", "quantifier": "all circuits and all identity hashes", "why_tests_cant": "All circuits; hashes are run dependent.", "anchors": ["src/probabilistic_model/probabilistic_circuit/nx/probabilistic_circuit.py:ProbabilisticCircuit.to_json", "src/probabilistic_model/probabilistic_circuit/nx/probabilistic_circuit.py:ProbabilisticCircuit._from_json"]}
{"id": "C20", "title": "Copying is lossless and independent", "statement": "copy(circuit) answers every query as the original, and no later in-place operation on the copy changes the answers of the original.", "quantifier": "all circuits and all later sequences of in-place operations (conditioning, marginalising, simplifying, normalising, translating, scaling)", "why_tests_cant": "Quantifies over all later histories.", "anchors": ["src/probabilistic_model/probabilistic_circuit/nx/probabilistic_circuit.py:ProbabilisticCircuit.__copy__", "src/probabilistic_model/distributions/distributions.py:DiscreteDistribution.__copy__", "src/probabilistic_model/distributions/distributions.py:DiscreteDistribution.normalize"]}
{"id": "C21", "title": "Equal circuits describe the same distribution", "statement": "If circuit_a == circuit_b then both circuits assign the same likelihood to every point.", "quantifier": "all pairs of circuits", "why_tests_cant": "All pairs of circuits.", "anchors": ["src/probabilistic_model/probabilistic_circuit/nx/probabilistic_circuit.py:Unit.__eq__", "src/probabilistic_model/probabilistic_circuit/nx/probabilistic_circuit.py:SumUnit.__eq__", "src/probabilistic_model/probabilistic_circuit/nx/probabilistic_circuit.py:ProbabilisticCircuit.__eq__"]}
{"id": "C22", "title": "is_decomposable decides decomposability", "statement": "is_decomposable() returns True iff the children of every product unit of the circuit have pairwise disjoint variables.", "quantifier": "all circuits", "why_tests_cant": "All circuits.", "anchors": ["src/probabilistic_model/probabilistic_circuit/nx/probabilistic_circuit.py:ProbabilisticCircuit.is_decomposable", "src/probabilistic_model/probabilistic_circuit/nx/probabilistic_circuit.py:ProductUnit.is_decomposable"]}
{"id": "C23", "title": "is_deterministic is sound", "statement": "If is_deterministic() returns True, then at every point at most one child of each sum unit has positive likelihood.", "quantifier": "all layered circuits, all points", "why_tests_cant": "All circuits and all points.", "anchors": ["src/probabilistic_model/probabilistic_circuit/nx/probabilistic_circuit.py:ProbabilisticCircuit.is_deterministic", "src/probabilistic_model/probabilistic_circuit/nx/probabilistic_circuit.py:SumUnit.is_deterministic", "src/probabilistic_model/probabilistic_circuit/nx/probabilistic_circuit.py:ProbabilisticCircuit.support"]}
{"id": "C24", "title": "support contains every possible point", "statement": "Every point with positive likelihood lies in support, and every point of support has positive likelihood.", "quantifier": "all layered decomposable circuits with positive weights, all points", "why_tests_cant": "All circuits and all points.", "anchors": ["src/probabilistic_model/probabilistic_circuit/nx/probabilistic_circuit.py:ProbabilisticCircuit.support", "src/probabilistic_model/probabilistic_circuit/nx/probabilistic_circuit.py:SumUnit.support", "src/probabilistic_model/probabilistic_circuit/nx/probabilistic_circuit.py:ProductUnit.support"]}
{"id": "C25", "title": "mode is a global maximiser", "statement": "For a deterministic circuit, mode() returns a likelihood that is an upper bound of the likelihood of every point and is attained at every point of the returned event.", "quantifier": "all deterministic layered circuits, all points", "why_tests_cant": "Global optimality over an infinite domain.", "anchors": ["src/probabilistic_model/probabilistic_circuit/nx/probabilistic_circuit.py:ProbabilisticCircuit.log_mode", "src/probabilistic_model/probabilistic_circuit/nx/probabilistic_circuit.py:SumUnit.log_mode", "src/probabilistic_model/probabilistic_circuit/nx/probabilistic_circuit.py:ProductUnit.log_mode", "src/probabilistic_model/distributions/distributions.py:SymbolicDistribution.univariate_log_mode"]}
{"id": "C26", "title": "Moments of a circuit are the moments of its distribution", "statement": "moment(order, center) of a normalised circuit returns for every variable the weighted mixture of the leaf moments, i.e. the moment of the marginal distribution of that variable.", "quantifier": "all normalised smooth decomposable layered circuits, all orders and centers", "why_tests_cant": "All circuits and all real centers.", "anchors": ["src/probabilistic_model/probabilistic_circuit/nx/probabilistic_circuit.py:ProbabilisticCircuit.moment", "src/probabilistic_model/probabilistic_circuit/nx/probabilistic_circuit.py:LeafUnit.moment", "src/probabilistic_model/probabilistic_circuit/nx/probabilistic_circuit.py:SumUnit.moment", "src/probabilistic_model/probabilistic_circuit/nx/probabilistic_circuit.py:ProductUnit.moment"]}
{"id": "C27", "title": "Dirac moments are correct", "statement": "moment(n, c) of a Dirac distribution at location l is (l - c)^n.", "quantifier": "all locations, centers and orders", "why_tests_cant": "All reals and orders.", "anchors": ["src/probabilistic_model/distributions/distributions.py:DiracDeltaDistribution.moment"]}
{"id": "C28", "title": "Gaussian moments are correct", "statement": "moment(n, c) of a Gaussian distribution satisfies the defining recurrence of Gaussian moments: M0 = 1, M1 = mu - c, M(n+2) = (mu - c) M(n+1) + (n+1) sigma^2 M(n).", "quantifier": "all means, standard deviations, centers and orders", "why_tests_cant": "All orders; a binomial/factorial identity.", "anchors": ["src/probabilistic_model/distributions/gaussian.py:GaussianDistribution.raw_moment", "src/probabilistic_model/distributions/gaussian.py:GaussianDistribution.moment"]}
{"id": "C29", "title": "Translation shifts the distribution", "statement": "After translate(t) the likelihood at x equals the previous likelihood at x - t.", "quantifier": "all circuits (including single-leaf circuits), all translations, all points", "why_tests_cant": "All circuits and reals.", "anchors": ["src/probabilistic_model/probabilistic_circuit/nx/probabilistic_circuit.py:ProbabilisticCircuit.translate", "src/probabilistic_model/distributions/distributions.py:ContinuousDistributionWithFiniteSupport.translate", "src/probabilistic_model/distributions/distributions.py:IntegerDistribution.translate", "src/probabilistic_model/distributions/distributions.py:DiracDeltaDistribution.translate"]}
{"id": "C30", "title": "Scaling scales the distribution", "statement": "After scale(s) with s > 0 the probability of an interval [s*a, s*b] equals the previous probability of [a, b].", "quantifier": "all circuits, all scalings, all intervals", "why_tests_cant": "All circuits and reals.", "anchors": ["src/probabilistic_model/probabilistic_circuit/nx/probabilistic_circuit.py:ProbabilisticCircuit.scale", "src/probabilistic_model/distributions/distributions.py:DiracDeltaDistribution.scale", "src/probabilistic_model/distributions/distributions.py:IntegerDistribution.scale", "src/probabilistic_model/distributions/distributions.py:ContinuousDistributionWithFiniteSupport.scale"]}
{"id": "C31", "title": "Discrete distributions: fit, normalise, condition", "statement": "fit makes each probability the relative frequency in the data and the probabilities sum to one; normalize rescales to total one preserving ratios; conditioning on a set E yields p(x)/P(E) on E and zero elsewhere with reported probability P(E), and None iff P(E) = 0.", "quantifier": "all data lists, all probability dictionaries, all sets", "why_tests_cant": "All lists and dictionaries.", "anchors": ["src/probabilistic_model/distributions/distributions.py:DiscreteDistribution.fit", "src/probabilistic_model/distributions/distributions.py:DiscreteDistribution.normalize", "src/probabilistic_model/distributions/distributions.py:DiscreteDistribution.log_conditional_of_composite_set", "src/probabilistic_model/distributions/distributions.py:SymbolicDistribution.log_conditional_of_composite_set"]}
{"id": "C32", "title": "Integer cdf is independent of dictionary order", "statement": "The cdf of an integer distribution at x is the sum of the probabilities of all values <= x for every insertion order of its probability dictionary.", "quantifier": "all probability dictionaries in all insertion orders, all points", "why_tests_cant": "All permutations.", "anchors": ["src/probabilistic_model/distributions/distributions.py:IntegerDistribution.cdf"]}
{"id": "C33", "title": "Reading an absent key never changes a MissingDict", "statement": "Looking up any sequence of keys in a MissingDict returns the stored value or the default and leaves the dictionary unchanged.", "quantifier": "all dictionaries and lookup sequences", "why_tests_cant": "All histories.", "anchors": ["src/probabilistic_model/utils.py:MissingDict"]}
{"id": "C34", "title": "Multinomial marginal keeps variables and axes aligned", "statement": "marginal(V) of a multinomial distribution assigns every assignment of V the sum of the joint probabilities of all its extensions, whatever the order in which V is given.", "quantifier": "all tables, all variable tuples and all orders of V", "why_tests_cant": "All permutations of variables, all tables.", "anchors": ["src/probabilistic_model/distributions/multinomial.py:MultinomialDistribution.marginal"]}
{"id": "C35", "title": "Multinomial conditional, mode and circuit conversion", "statement": "For a normalised multinomial distribution, conditioning obeys Bayes' rule for disjoint simple events, mode returns all and only the maximisers, and as_probabilistic_circuit describes the same distribution.", "quantifier": "all tables and events", "why_tests_cant": "All tables.", "anchors": ["src/probabilistic_model/distributions/multinomial.py:MultinomialDistribution.log_conditional", "src/probabilistic_model/distributions/multinomial.py:MultinomialDistribution.log_mode", "src/probabilistic_model/distributions/multinomial.py:MultinomialDistribution.as_probabilistic_circuit"]}
{"id": "C36", "title": "as_deterministic_sum preserves a discrete distribution", "statement": "Converting a discrete leaf into a deterministic sum leaves every likelihood and probability unchanged, and from_mixture recovers the distribution.", "quantifier": "all discrete distributions, all points", "why_tests_cant": "All dictionaries.", "anchors": ["src/probabilistic_model/probabilistic_circuit/nx/distributions/distributions.py:UnivariateDiscreteLeaf.as_deterministic_sum", "src/probabilistic_model/probabilistic_circuit/nx/distributions/distributions.py:UnivariateDiscreteLeaf.from_mixture"]}
{"id": "C37", "title": "Mounting with interaction terms realises the factorisation", "statement": "mount_with_interaction_terms(other, m) turns a mixture into the distribution sum_i sum_j m(i,j) * own_i * other_j.", "quantifier": "all mixtures, all interaction tables with the own weights as marginal", "why_tests_cant": "All tables and component counts.", "anchors": ["src/probabilistic_model/probabilistic_circuit/nx/probabilistic_circuit.py:SumUnit.mount_with_interaction_terms"]}
{"id": "C38", "title": "Bayesian network conversion preserves the joint distribution", "statement": "The circuit produced by BayesianNetwork.as_probabilistic_circuit assigns every full assignment the product of root probability and conditional probabilities.", "quantifier": "all tree-shaped discrete Bayesian networks of any size", "why_tests_cant": "All trees and tables.", "anchors": ["src/probabilistic_model/bayesian_network/bayesian_network.py:BayesianNetwork.as_probabilistic_circuit", "src/probabilistic_model/bayesian_network/distributions.py:ConditionalProbabilityTable"]}
{"id": "C39", "title": "Bayesian network forward pass computes marginals", "statement": "After forward_pass(event) every node's message is the distribution of its variable given the evidence on its ancestors and itself, and the forward probability is the probability of that evidence.", "quantifier": "all chains of conditional probability tables and all events", "why_tests_cant": "All networks and events.", "anchors": ["src/probabilistic_model/bayesian_network/distributions.py:ConditionalProbabilityTable.forward_pass", "src/probabilistic_model/bayesian_network/distributions.py:RootDistribution.forward_pass", "src/probabilistic_model/bayesian_network/bayesian_network.py:BayesianNetwork.forward_pass"]}
{"id": "C40", "title": "Nyga induction partitions the data range", "statement": "After fit on at least two distinct values, the intervals of the leaves are disjoint, cover exactly [min, max], every data point lies in exactly one leaf, every leaf holds at least min_samples_per_quantile points (or is the only leaf), leaf weights are the relative frequencies and sum to one, and fitting terminates.", "quantifier": "all data lists, all parameters min_samples_per_quantile >= 1 and all outcomes of the likelihood comparison", "why_tests_cant": "All data sets; recursion of unbounded depth.", "anchors": ["src/probabilistic_model/learning/nyga_distribution.py:InductionStep", "src/probabilistic_model/learning/nyga_distribution.py:NygaDistribution.fit"]}
{"id": "C41", "title": "Converting a mixture of uniforms to a Nyga distribution", "statement": "from_uniform_mixture returns a deterministic mixture that assigns every interval the same probability as the given mixture.", "quantifier": "all univariate mixtures of uniform distributions", "why_tests_cant": "All mixtures.", "anchors": ["src/probabilistic_model/learning/nyga_distribution.py:NygaDistribution.from_uniform_mixture"]}
{"id": "C42", "title": "JPT induction partitions the samples", "statement": "JPT.fit assigns every sample to exactly one leaf, leaf weights are the fraction of samples and sum to one, each leaf holds at least min_samples_leaf samples, depth never exceeds max_depth and fitting terminates.", "quantifier": "all data sizes, all parameters, all answers of the impurity computation that respect its contract", "why_tests_cant": "All histories of the induction queue.", "anchors": ["src/probabilistic_model/learning/jpt/jpt.py:JPT.fit", "src/probabilistic_model/learning/jpt/jpt.py:JPT.c45"]}
{"id": "C43", "title": "JPT respects max_leaves", "statement": "The fitted tree never has more than max_leaves leaves.", "quantifier": "all data sets and all values of max_leaves", "why_tests_cant": "All runs.", "anchors": ["src/probabilistic_model/learning/jpt/jpt.py:JPT.max_leaves", "src/probabilistic_model/learning/jpt/jpt.py:JPT.c45"]}
{"id": "C44", "title": "JPT fits are isolated from each other", "statement": "Fitting one JPT is not influenced by an earlier fit of another JPT, even if that earlier fit was aborted by an exception.", "quantifier": "all sequences of fits and all crash points", "why_tests_cant": "Ranges over crash points.", "anchors": ["src/probabilistic_model/learning/jpt/jpt.py:JPT.c45queue", "src/probabilistic_model/learning/jpt/jpt.py:JPT.fit"]}
{"id": "C45", "title": "JPT targets and features", "statement": "With only features (only targets) given, the targets (features) are the remaining variables; with neither given both are all variables; with both given each is as given without duplicates; results are always sorted.", "quantifier": "all variable, target and feature lists", "why_tests_cant": "All subsets.", "anchors": ["src/probabilistic_model/learning/jpt/jpt.py:JPT.set_targets_and_features"]}
{"id": "C46", "title": "JPT parameters survive serialisation and copying", "statement": "parameters_from_json(to_json(jpt)) and empty_copy() preserve min_samples_leaf, max_leaves, max_depth, targets, features, dependencies and total_samples.", "quantifier": "all parameter values", "why_tests_cant": "All parameter combinations.", "anchors": ["src/probabilistic_model/learning/jpt/jpt.py:JPT.to_json", "src/probabilistic_model/learning/jpt/jpt.py:JPT.parameters_from_json", "src/probabilistic_model/learning/jpt/jpt.py:JPT.empty_copy"]}
{"id": "C47", "title": "Scaled variables encode and decode inversely", "statement": "decode(encode(x)) = x and encode(decode(z)) = z for a scaled continuous variable with non-zero standard deviation.", "quantifier": "all means, standard deviations and values", "why_tests_cant": "All reals.", "anchors": ["src/probabilistic_model/learning/jpt/variables.py:ScaledContinuous.encode", "src/probabilistic_model/learning/jpt/variables.py:ScaledContinuous.decode"]}
{"id": "C48", "title": "Random region partitions are partitions", "statement": "random_partition splits a region into k regions that are pairwise disjoint, cover the region and whose sizes differ by at most one, for every random permutation; consequently every partition of a region graph is decomposable.", "quantifier": "all regions, all k >= 1, all permutations", "why_tests_cant": "All permutations.", "anchors": ["src/probabilistic_model/learning/region_graph/region_graph.py:Region.random_partition", "src/probabilistic_model/learning/region_graph/region_graph.py:RandomRegionGraph.recursive_split"]}
{"id": "C49", "title": "Every random region graph converts to a circuit", "statement": "as_probabilistic_circuit succeeds for the graph built for any number of variables, partitions and depth.", "quantifier": "all variable counts, partition counts, depths", "why_tests_cant": "All parameters.", "anchors": ["src/probabilistic_model/learning/region_graph/region_graph.py:RegionGraph.as_probabilistic_circuit", "src/probabilistic_model/learning/region_graph/region_graph.py:RandomRegionGraph.recursive_split"]}
{"id": "C50", "title": "JAX sum layer computes the normalised mixture", "statement": "For every sparse sum layer, the log-likelihood of node i is log(sum_j exp(w_ij) p_j(x) / sum_j exp(w_ij)).", "quantifier": "all layers, all weights, all points", "why_tests_cant": "All weight matrices.", "anchors": ["src/probabilistic_model/probabilistic_circuit/jax/inner_layer.py:SparseSumLayer.log_likelihood_of_nodes_single", "src/probabilistic_model/probabilistic_circuit/jax/inner_layer.py:SumLayer.log_normalization_constants"]}
{"id": "C51", "title": "JAX product layers evaluate each child on its own variables", "statement": "For a layered circuit of any nesting depth each input layer is evaluated on the column of its own variable.", "quantifier": "all nestings of product layers", "why_tests_cant": "All nesting depths; tests only use one product level.", "anchors": ["src/probabilistic_model/probabilistic_circuit/jax/inner_layer.py:ProductLayer.log_likelihood_of_nodes_single"]}
{"id": "C52", "title": "Sparse index helpers", "statement": "create_bcoo_indices_from_row_lengths enumerates for each row r of length n_r the index pairs (r,0)..(r,n_r-1); create_bcsr_indices_from_row_lengths the same columns with the matching indent pointer. create_bcoo_indices_from_row_lengths_np gives the same pairs as an array of rows and an array of columns.", "quantifier": "all lists of row lengths", "why_tests_cant": "All list lengths; the tests use two rows.", "anchors": ["src/probabilistic_model/probabilistic_circuit/jax/utils.py:create_bcoo_indices_from_row_lengths", "src/probabilistic_model/probabilistic_circuit/jax/utils.py:create_bcsr_indices_from_row_lengths", "src/probabilistic_model/probabilistic_circuit/jax/utils.py:create_bcoo_indices_from_row_lengths_np"]}
{"id": "C53", "title": "Index shrinking is an order isomorphism", "statement": "shrink_index_array replaces in each column every index by its rank among the distinct indices of that column.", "quantifier": "all index arrays", "why_tests_cant": "All arrays; the in-place renaming could collide.", "anchors": ["src/probabilistic_model/probabilistic_circuit/jax/utils.py:shrink_index_array", "src/probabilistic_model/probabilistic_circuit/jax/utils.py:sparse_remove_rows_and_cols_where_all"]}
{"id": "C54", "title": "Conversion between JAX and networkx circuits preserves the distribution", "statement": "from_nx and to_nx preserve every sum unit's normalised weights and every leaf's parameters.", "quantifier": "all circuits / layers", "why_tests_cant": "All weights.", "anchors": ["src/probabilistic_model/probabilistic_circuit/jax/inner_layer.py:SparseSumLayer.to_nx", "src/probabilistic_model/probabilistic_circuit/jax/inner_layer.py:DenseSumLayer.to_nx", "src/probabilistic_model/probabilistic_circuit/jax/gaussian_layer.py:GaussianLayer"]}
{"id": "C55", "title": "Coupling circuits split the parameter vector without loss", "statement": "The parameter slices are contiguous, disjoint, in order and cover exactly the parameter vector, so rebuilding a circuit from its own flattened parameters is the identity.", "quantifier": "all parameter shapes", "why_tests_cant": "All shapes.", "anchors": ["src/probabilistic_model/probabilistic_circuit/jax/coupling_circuit.py:CouplingCircuit.slices_of_parameters_for_flat_model", "src/probabilistic_model/probabilistic_circuit/jax/coupling_circuit.py:CouplingCircuit.create_circuit_from_parameters"]}
{"id": "C56", "title": "Classification circuits index variables and labels correctly", "statement": "as_probabilistic_circuit renumbers the variables consistently with the sorted union of variables, and the classification loss is the average negative log probability of each sample's own label.", "quantifier": "all variable sets, class variables, batches and labels", "why_tests_cant": "All batches.", "anchors": ["src/probabilistic_model/probabilistic_circuit/jax/probabilistic_circuit.py:ClassificationCircuit.as_probabilistic_circuit", "src/probabilistic_model/probabilistic_circuit/jax/probabilistic_circuit.py:ClassificationCircuit.fit"]}
{"id": "C57", "title": "The shallow transformation preserves the distribution", "statement": "ShallowProbabilisticCircuit.from_probabilistic_circuit(c) describes the same distribution as c.", "quantifier": "all tree-shaped circuits", "why_tests_cant": "All circuits.", "anchors": ["src/probabilistic_model/probabilistic_circuit/nx/probabilistic_circuit.py:ShallowProbabilisticCircuit.shallowing"]}
{"id": "C58", "title": "Uniform measures are uniform", "statement": "uniform_measure_of_event(e) assigns every sub-event probability proportional to its volume.", "quantifier": "all bounded events", "why_tests_cant": "All events.", "anchors": ["src/probabilistic_model/probabilistic_circuit/nx/helper.py:uniform_measure_of_event", "src/probabilistic_model/probabilistic_circuit/nx/helper.py:uniform_measure_of_simple_event"]}
{"id": "C59", "title": "Expectation and variance", "statement": "variance(v) of a model is its second moment about the expectation, is non-negative, and is zero for a Dirac distribution.", "quantifier": "all normalised circuits", "why_tests_cant": "All circuits.", "anchors": ["src/probabilistic_model/probabilistic_model.py:ProbabilisticModel.expectation", "src/probabilistic_model/probabilistic_model.py:ProbabilisticModel.variance"]}
{"id": "C60", "title": "Monte-Carlo metrics are bounded", "statement": "The Monte-Carlo estimate of a distance between two models computed as 2*(p - q) lies in [-2, 2] for all samples, and estimates of probabilities lie in [0,1].", "quantifier": "all samples and all events", "why_tests_cant": "All samples.", "anchors": ["src/probabilistic_model/monte_carlo_estimator.py:MonteCarloEstimator"]}
{"id": "C61", "title": "A fitted JPT is a valid circuit", "statement": "A fitted JPT is a smooth, decomposable circuit with normalised weights over exactly the variables it was built for, every leaf is a proper distribution, and the probability of everything is one.", "quantifier": "all data tables, all parameters, all answers of the impurity computation that respect its contract", "why_tests_cant": "All data.", "anchors": ["src/probabilistic_model/learning/jpt/jpt.py:JPT.fit", "src/probabilistic_model/learning/jpt/jpt.py:JPT.create_leaf_node"]}
{"id": "C62", "title": "Density cap of Dirac leaves in a JPT", "statement": "If a continuous variable has a single value in a leaf, the leaf's Dirac distribution has density cap 1 / minimal_distance.", "quantifier": "all continuous variables and constant columns", "why_tests_cant": "All columns.", "anchors": ["src/probabilistic_model/learning/jpt/jpt.py:JPT.create_leaf_node"]}
{"id": "C63", "title": "Removing empty rows and columns of a sparse matrix agrees with the dense operation", "statement": "For every sparse matrix in coordinate format with distinct in-bound indices, sparse_remove_rows_and_cols_where_all(matrix, 0), made dense, equals remove_rows_and_cols_where_all(dense matrix, 0).", "quantifier": "all sparse matrices of any shape with distinct in-bound indices (zeros may be stored explicitly)", "why_tests_cant": "The matrices are unbounded in shape and number of entries; the failing case (no entries at all) is not exercised by the tests.", "anchors": ["src/probabilistic_model/probabilistic_circuit/jax/utils.py"]}
{"id": "C64", "title": "Samples of truncated Gaussians follow the distribution", "statement": "TruncatedGaussianDistribution.sample(n), whenever it returns, returns exactly n numbers; each lies between the bounds of the interval; they are the accepted ones of independent attempts, in order, each attempt using its own two random numbers; given acceptance, an attempt has the cdf of the distribution; no exception is raised and an attempt is accepted with positive probability.", "quantifier": "all locations, positive scales, intervals with at least one finite bound (open or closed), sample sizes, streams of uniform random numbers, and lengths of the rejection loop", "why_tests_cant": "The claim is about the law of the output and about every random stream; a test sees finitely many samples and cannot tell a slightly wrong envelope or a cut tail from noise.", "anchors": ["src/probabilistic_model/distributions/gaussian.py:TruncatedGaussianDistribution.sample", "src/probabilistic_model/distributions/gaussian.py:TruncatedGaussianDistribution.robert_rejection_sample", "src/probabilistic_model/distributions/gaussian.py:TruncatedGaussianDistribution.robert_rejection_sample_from_standard_normal_with_double_truncation", "src/probabilistic_model/distributions/gaussian.py:TruncatedGaussianDistribution.robert_rejection_sample_from_standard_normal_with_double_truncation_helper"]}
{"id": "C65", "title": "Replacing discrete leaves by deterministic sums keeps the circuit", "statement": "replace_discrete_distribution_with_deterministic_sum terminates without an exception; afterwards every discrete leaf is concentrated on one element and the circuit has the same likelihoods and the same probabilities of events as before. If there is no discrete leaf the circuit is unchanged.", "quantifier": "all circuits with levels, all smooth parameters, all iteration orders of the set of leaves", "why_tests_cant": "The order of the leaves comes from a set and the preservation statement quantifies over all points and events.", "anchors": ["src/probabilistic_model/probabilistic_circuit/nx/probabilistic_circuit.py:ProbabilisticCircuit.replace_discrete_distribution_with_deterministic_sum", "src/probabilistic_model/probabilistic_circuit/nx/distributions/distributions.py:UnivariateDiscreteLeaf.as_deterministic_sum"]}
{"id": "C66", "title": "mount_from_bayesian_network pairs the components and keeps the weights", "statement": "For sum units of separate circuits with disjoint variables and equally many subcircuits, mount_from_bayesian_network returns; afterwards the i-th edge of the sum unit goes to a new product unit with exactly the i-th own and the i-th other subcircuit below it, and has the weight the i-th own subcircuit had.", "quantifier": "all pairs of well formed circuits, all numbers of components, all weights", "why_tests_cant": "The claim is about loops of any length over graphs of any shape; the method has no test in the repository.", "anchors": ["src/probabilistic_model/probabilistic_circuit/nx/probabilistic_circuit.py:SumUnit.mount_from_bayesian_network"]}
{"id": "C67", "title": "l1 is the L1 metric between shallow circuits", "statement": "For shallow circuits with normalised weights over the same variables, l1(other, tolerance=0) is twice the largest difference of probabilities that the two circuits give to one event, so it is a metric: non-negative, at most 2, symmetric, zero exactly when the circuits give the same probabilities, and it satisfies the triangle inequality.", "quantifier": "all pairs (and triples) of shallow circuits of uniform leaves over any number of variables, any number of components and any weights; all events that are finite unions of disjoint boxes; all tolerances for the approximate form", "why_tests_cant": "The claim compares with every event; tests only compare l1 with literal numbers of a few circuits.", "anchors": ["src/probabilistic_model/probabilistic_circuit/nx/probabilistic_circuit.py:ProbabilisticCircuit.l1", "src/probabilistic_model/probabilistic_circuit/nx/probabilistic_circuit.py:ProbabilisticCircuit.events_of_higher_density_sum", "src/probabilistic_model/probabilistic_circuit/nx/probabilistic_circuit.py:ProbabilisticCircuit.events_of_higher_density_product"]}
{"id": "C68", "title": "nodes_weights lists the weights of all paths to a unit", "statement": "For every valid circuit, nodes_weights ends and maps every unit to the list of the products of the edge weights along the paths from the root to it, one entry per path.", "quantifier": "all well formed circuits, all numbers of paths, all weights", "why_tests_cant": "The number of paths grows exponentially with the circuit; the method has no test in the repository.", "anchors": ["src/probabilistic_model/probabilistic_circuit/nx/probabilistic_circuit.py:ProbabilisticCircuit.nodes_weights"]}
{"id": "C69", "title": "infer_variables_from_dataframe describes the columns", "statement": "For every table without unknown types and empty float columns, infer_variables_from_dataframe returns one variable per column, in order; mean and std are the average and the sample deviation of the column, the minimal distance is the smallest distance between any two different values (1 for constant columns) and positive, and a symbolic domain has exactly the values of the column.", "quantifier": "all tables, all numbers of rows and columns", "why_tests_cant": "The minimal distance compares all pairs of values of arbitrarily long columns; tests only look at the types of the variables.", "anchors": ["src/probabilistic_model/learning/jpt/variables.py:infer_variables_from_dataframe"]}
{"id": "C70", "title": "preprocess_data encodes the table faithfully", "statement": "With the variables inferred from a table, in any order, preprocess_data returns one column of numbers per variable: decoding a scaled column gives the entries back, symbols are numbered in their order, other columns are unchanged; scaled columns have average 0 and deviation 1.", "quantifier": "all tables, all orders of the variables, with and without scaling", "why_tests_cant": "Tests preprocess one table; constant columns are not among them.", "anchors": ["src/probabilistic_model/learning/jpt/jpt.py:JPT.preprocess_data", "src/probabilistic_model/learning/jpt/variables.py:ScaledContinuous.encode", "src/probabilistic_model/learning/jpt/variables.py:ScaledContinuous.decode"]}
{"id": "C71", "title": "fully_factorized gives independent variables with the requested distributions", "statement": "For all distinct variables, means and positive variances, fully_factorized returns a circuit in which the probability of every simple event is the product over the variables of the normal probability with the given mean and variance (continuous variables) and of the share of symbols (symbolic variables); integer variables are refused.", "quantifier": "all sets of variables, means, variances and simple events", "why_tests_cant": "Tests use unit variances, for which standard deviation and variance agree.", "anchors": ["src/probabilistic_model/probabilistic_circuit/nx/helper.py:fully_factorized"]}
{"id": "C72", "title": "is_valid decides whether a circuit is acyclic and connected", "statement": "For every graph with at least one node, is_valid terminates without raising and returns True exactly if there is no closed walk along edges and every two nodes are connected by edges in any direction; the empty graph raises; rooted acyclic circuits are valid.", "quantifier": "all finite directed graphs", "why_tests_cant": "is_valid is never tested, and the topological sort and the search need an invariant over all graphs.", "anchors": ["src/probabilistic_model/probabilistic_circuit/nx/probabilistic_circuit.py:ProbabilisticCircuit.is_valid"]}
{"id": "C73", "title": "number_of_components counts the leaves and edges of the circuit a layer stands for", "statement": "For every layer of the jax backend that converts to a networkx circuit, number_of_components equals the number of leaf units plus the number of edges of that circuit, and all_layers_with_depth lists every layer of all_layers together with its distance from the root.", "quantifier": "all layers (any depth, any sparsity pattern), any conversion", "why_tests_cant": "A test counts one small circuit; the agreement with the converted circuit needs an induction over all layers and depends on how duplicate entries and surplus weights are stored.", "anchors": ["src/probabilistic_model/probabilistic_circuit/jax/inner_layer.py:number_of_components", "src/probabilistic_model/probabilistic_circuit/jax/inner_layer.py:all_layers_with_depth"]}
{"id": "C74", "title": "A Bayesian network with circuit nodes becomes a circuit with the density of the network", "statement": "For every tree-shaped Bayesian network whose nodes are conditional probability tables or, at the leaves, conditional circuits, as_probabilistic_circuit succeeds and returns a smooth and decomposable circuit over all variables whose likelihood is the root probability times, for every node, the table entry or the density of the circuit that belongs to the state of the parent.", "quantifier": "all tree-shaped networks (any depth, any number of states), all circuits of circuit nodes, all real points", "why_tests_cant": "A test evaluates one small network with its dictionaries filled in the order of the states; the agreement for all networks needs an induction over the tree, and what happens with another order does not show up.", "anchors": ["src/probabilistic_model/bayesian_network/bayesian_network.py:as_probabilistic_circuit", "src/probabilistic_model/bayesian_network/distributions.py:ConditionalProbabilisticCircuit"]}
{"id": "C75", "title": "A circuit node made from a mixture has the mixture's components as conditional distributions", "statement": "For every circuit and every sum unit in it, ConditionalProbabilisticCircuit.from_unit creates one circuit per component, keyed by the index of the component, whose density is the density of the component; the network that has the latent variable of the mixture as root and this node below it converts to a circuit whose slice at the k-th latent state is the k-th weight times the k-th component, so that summing out the latent variable gives the mixture back.", "quantifier": "all circuits, all sum units with any number of components, all real points", "why_tests_cant": "No test calls from_unit, and a test with leaf components would not show that components with subcircuits are copied without them.", "anchors": ["src/probabilistic_model/bayesian_network/distributions.py:ConditionalProbabilisticCircuit.from_unit", "src/probabilistic_model/probabilistic_circuit/nx/probabilistic_circuit.py:SumUnit.__copy__", "src/probabilistic_model/probabilistic_circuit/nx/probabilistic_circuit.py:ProductUnit.__copy__"]}
{"id": "C76", "title": "Equality and hashing of univariate distributions", "statement": "For all proper univariate distributions a, b, c: `==` is an equivalence relation, and if a == b then a and b have the same log-likelihood at every point, the same probability of every event, the same cdf, moments and support, and hash(a) == hash(b).", "quantifier": "all pairs and triples of uniform, Dirac, Gaussian, truncated Gaussian, symbolic and integer distributions with proper parameters, including pairs of different classes", "why_tests_cant": "The tests compare a few distributions with copies of themselves; the law ranges over all pairs of all classes (reflected comparison with subclasses included) and over all orders in which a probability dictionary may have been filled.", "anchors": ["src/probabilistic_model/distributions/distributions.py:UnivariateDistribution.__eq__", "src/probabilistic_model/distributions/distributions.py:DiscreteDistribution.__eq__", "src/probabilistic_model/distributions/distributions.py:DiscreteDistribution.__hash__", "src/probabilistic_model/distributions/distributions.py:DiracDeltaDistribution.__eq__", "src/probabilistic_model/distributions/distributions.py:DiracDeltaDistribution.__hash__", "src/probabilistic_model/distributions/uniform.py:UniformDistribution.__eq__", "src/probabilistic_model/distributions/uniform.py:UniformDistribution.__hash__", "src/probabilistic_model/distributions/gaussian.py:GaussianDistribution.__eq__", "src/probabilistic_model/distributions/gaussian.py:TruncatedGaussianDistribution.__eq__"]}
{"id": "C77", "title": "Equality of multinomial distributions", "statement": "`==` of MultinomialDistribution is an equivalence relation, and multinomials that are equal have the same variables in the same order and the same probability mass function.", "quantifier": "all multinomial distributions over any number of variables of any domain sizes", "why_tests_cant": "The comparison is np.allclose; whether it is symmetric, transitive and faithful depends on differences at the size of the tolerances, which example tables never have.", "anchors": ["src/probabilistic_model/distributions/multinomial.py:MultinomialDistribution.__eq__"]}
{"id": "C78", "title": "Layered circuits survive JSON", "statement": "Writing a layered (JAX) circuit to JSON and reading it again yields a circuit with the same variables and a root layer that has the same nodes, variables, validation result and log-likelihoods of every point, and that is written the same way again.", "quantifier": "all layered circuits over all kinds of layers", "why_tests_cant": "Layers nest arbitrarily and arrays have any shape, including empty ones.", "anchors": ["src/probabilistic_model/probabilistic_circuit/jax/probabilistic_circuit.py:ProbabilisticCircuit.to_json", "src/probabilistic_model/probabilistic_circuit/jax/probabilistic_circuit.py:ProbabilisticCircuit._from_json", "src/probabilistic_model/probabilistic_circuit/jax/inner_layer.py:SparseSumLayer._from_json", "src/probabilistic_model/probabilistic_circuit/jax/inner_layer.py:DenseSumLayer._from_json", "src/probabilistic_model/probabilistic_circuit/jax/inner_layer.py:ProductLayer._from_json"]}
{"id": "C79", "title": "Fitting a multinomial distribution maximises the likelihood", "statement": "fit of a multinomial distribution on data of index tuples gives every state its relative frequency in the data; the probabilities sum to one, and every other distribution over the same variables gives the data a strictly smaller likelihood.", "quantifier": "all variables, all non-empty data of valid index tuples, all competing distributions", "why_tests_cant": "Competing distributions form a continuum; data of every size and shape.", "anchors": ["src/probabilistic_model/distributions/multinomial.py:MultinomialDistribution.fit", "src/probabilistic_model/distributions/multinomial.py:MultinomialDistribution.normalize"]}
{"id": "C80", "title": "Multinomial distributions survive JSON", "statement": "Writing a multinomial distribution over variables with non-empty domains to JSON and reading it again yields the same variables in the same order and the same probability array.", "quantifier": "all multinomial distributions of any number of variables", "why_tests_cant": "Arrays of every rank and shape.", "anchors": ["src/probabilistic_model/distributions/multinomial.py:MultinomialDistribution.to_json", "src/probabilistic_model/distributions/multinomial.py:MultinomialDistribution._from_json"]}
{"id": "C81", "title": "The marginal of a joint probability tree is the marginal of its model", "statement": "JPT.marginal answers None exactly if none of the asked variables occurs. Otherwise it returns a circuit over the asked variables that gives every event the probability the tree gives to the event extended by the full domains. If one variable is asked for, a continuous one is returned as a deterministic mixture of uniform distributions and a discrete one as a single leaf.", "quantifier": "all joint probability trees, all lists of variables, with and without simplification, all events; all data sets for fitted trees", "why_tests_cant": "The marginal passes through pruning, simplification and the conversion of the remaining mixture, whose leaves may overlap in any way.", "anchors": ["src/probabilistic_model/learning/jpt/jpt.py:JPT.marginal", "src/probabilistic_model/learning/nyga_distribution.py:NygaDistribution.from_uniform_mixture", "src/probabilistic_model/probabilistic_circuit/nx/distributions/distributions.py:UnivariateDiscreteLeaf.from_mixture"]}
{"id": "C82", "title": "Random initial parameters of converted region graphs", "statement": "Every circuit that as_probabilistic_circuit makes of a region graph starts with Gaussian locations in [-1, 1), Gaussian scales in [0.5, 3) plus a minimal scale of 0.1, and probabilities and sum weights in [0.1, 1). Different layers draw their parameters afresh, so layers over different variables need not start alike.", "quantifier": "all region graphs, all random generators, all numbers of units", "why_tests_cant": "Tests see one key and few graphs; that one key serves all draws makes every layer of the same shape identical for every generator.", "anchors": ["src/probabilistic_model/learning/region_graph/region_graph.py:RegionGraph.as_probabilistic_circuit"]}
{"id": "C83", "title": "Circuit objects behave like the circuits they stand for", "statement": "Units and distributions are objects shared by reference. Simplifying, normalising, marginalising or conditioning a circuit object raises exactly when the operation raises on the circuit it stands for, and otherwise leaves the object standing for the result, up to the identity of newly created units, with the same return value. Hence marginal and log_conditional add one new circuit object with the probabilities of the marginal and of Bayes' rule and change no other circuit object.", "quantifier": "all heaps of circuit, unit, distribution and dictionary objects with any sharing between copies, all circuits, variable sets, events and earlier stored results", "why_tests_cant": "Tests look at one call on a freshly built circuit; aliasing through copies that share distributions depends on the whole history.", "anchors": ["src/probabilistic_model/probabilistic_circuit/nx/probabilistic_circuit.py:ProbabilisticCircuit.log_conditional", "src/probabilistic_model/probabilistic_circuit/nx/probabilistic_circuit.py:ProbabilisticCircuit.marginal", "src/probabilistic_model/probabilistic_circuit/nx/probabilistic_circuit.py:ProbabilisticCircuit.__copy__"]}
{"id": "C84", "title": "Rejection sampling from truncated Gaussians", "statement": "rejection_sample(n) returns exactly the first n draws of the Gaussian stream that lie in the interval, consumes nothing beyond the last of them, and ends once the stream has hit the interval n times. Each draw is accepted with probability normalizing_constant, and an accepted draw has the cumulative distribution function of the truncated Gaussian.", "quantifier": "all means, positive scales, nonempty intervals (bounded, one-sided, unbounded, open or closed), amounts and streams of normal numbers", "why_tests_cant": "Tests draw a few thousand samples and compare with tolerance; the law and the absence of an amount or stream for which too few samples come back need a proof over all streams.", "anchors": ["src/probabilistic_model/distributions/gaussian.py:TruncatedGaussianDistribution.rejection_sample"]}
{"id": "C85", "title": "Counts drawn from sparse rows of probabilities", "statement": "sample_from_sparse_probabilities_csc returns a matrix with the shape and the stored positions of the matrix of probabilities whose row i sums to amount[i]; the rows are independent multinomial draws with the probabilities of their row; with fewer amounts than rows it raises instead of leaving rows out.", "quantifier": "all sparse matrices whose rows are probability distributions over their stored entries, all amounts, all count vectors", "why_tests_cant": "The test checks the row sums of one random draw; the joint law over all count vectors and shapes cannot be sampled exhaustively.", "anchors": ["src/probabilistic_model/probabilistic_circuit/jax/utils.py:sample_from_sparse_probabilities_csc"]}
{"id": "C86", "title": "Embedding sparse arrays in nan arrays", "statement": "embed_sparse_array_in_nan_array returns a dense array of the shape of the sparse array that holds exactly the stored values at their positions and nan elsewhere; padding entries outside of the shape are ignored.", "quantifier": "all shapes, all lists of entries with consistent values for positions inside the shape", "why_tests_cant": "Shapes, sparsity patterns and padding are unbounded.", "anchors": ["src/probabilistic_model/probabilistic_circuit/jax/utils.py:embed_sparse_array_in_nan_array"]}
{"id": "C87", "title": "Arguments of the JPT impurity", "statement": "construct_impurity hands the impurity the data columns of exactly the numeric and symbolic targets and features in ascending order, one inversion flag per symbolic target, the domain sizes and variances in column order, and for every dependency the column of the variable with the columns of its dependent variables.", "quantifier": "all variable lists with distinct names, all target and feature subsets, all dependency maps over the variables", "why_tests_cant": "Tests use one or two variable layouts; interleavings of numeric and symbolic columns and subsets of targets are unbounded.", "anchors": ["src/probabilistic_model/learning/jpt/jpt.py:JPT.construct_impurity", "src/probabilistic_model/learning/jpt/jpt.py:JPT.numeric_targets", "src/probabilistic_model/learning/jpt/jpt.py:JPT.symbolic_variables"]}
{"id": "C88", "title": "Nyga splits by likelihood", "statement": "The two log likelihoods that a Nyga induction step compares are, up to the same constant, the log likelihoods of its distinct values under one uniform leaf and under the two leaves that share its weight. A step splits at the first best allowed index exactly if that makes the values more likely by more than min_likelihood_improvement, else it mounts one leaf with its share of the weight. So the fitted distribution has no leaf with an allowed split that is good enough, its n leaves make the distinct values more likely than one uniform leaf by at least the factor min_likelihood_improvement^(n-1), and the data with its repetitions is at least as likely as under the uniform distribution from its minimum to its maximum.", "quantifier": "all data with two values, all positive weights (steps) or frequencies (fit), all k >= 1, all thresholds >= 0 (steps) or > 0 (fit)", "why_tests_cant": "Tests fit a few samples and look at plots or at single likelihood values; that the incremental formulas with prefix sums agree with the model they stand for needs all data and all ranges.", "anchors": ["src/probabilistic_model/learning/nyga_distribution.py:InductionStep.compute_best_split", "src/probabilistic_model/learning/nyga_distribution.py:InductionStep.log_likelihood_without_split", "src/probabilistic_model/learning/nyga_distribution.py:InductionStep.log_likelihood_of_split_side", "src/probabilistic_model/learning/nyga_distribution.py:InductionStep.improvement_is_good_enough", "src/probabilistic_model/learning/nyga_distribution.py:InductionStep.induce", "src/probabilistic_model/learning/nyga_distribution.py:NygaDistribution.fit"]}
{"id": "C89", "title": "A fitted Nyga distribution is a histogram of the data", "statement": "After fit on data with two values the distribution is over its one variable, and there are disjoint intervals that cover exactly the range from the minimum to the maximum such that: probability of each interval is the fraction of the data in it, cdf at its lower end is the fraction of the data below it, cdf at its upper end is the fraction of the data up to there, log_likelihood at each of its points is the logarithm of this fraction over the width, and log_likelihood outside the range is minus infinity.", "quantifier": "all data with two values, all k >= 1, all thresholds >= 0, all ways to score splits, all points, all states of the result attributes left by earlier queries", "why_tests_cant": "Tests compare single likelihoods of one sample; agreement at all interval ends and points for all data needs an invariant of the induction composed with the evaluation of circuits.", "anchors": ["src/probabilistic_model/learning/nyga_distribution.py:NygaDistribution.fit", "src/probabilistic_model/learning/nyga_distribution.py:InductionStep.induce", "src/probabilistic_model/probabilistic_circuit/nx/probabilistic_circuit.py:ProbabilisticCircuit.cdf", "src/probabilistic_model/distributions/uniform.py:UniformDistribution.log_likelihood_without_bounds_check"]}
{"id": "C90", "title": "A fitted joint probability tree reproduces the frequencies of the data", "statement": "The leaves of a fitted JPT split the data into groups. The probability of an event over symbols and integers is the sum over the groups of the group's share of the data times, for every variable, the portion of the group whose entry lies in the event. Hence the probability of an event about one symbolic or integer variable is the portion of the data in it, and an event that contains the range of the data has probability one. Integers are those that Python hashes to themselves.", "quantifier": "all data tables, all parameters, all answers of the impurity computation that respect its contract, all events", "why_tests_cant": "All data sets, all trees that may be learned from them and all events.", "anchors": ["src/probabilistic_model/learning/jpt/jpt.py:JPT.fit", "src/probabilistic_model/learning/jpt/jpt.py:JPT.c45", "src/probabilistic_model/learning/jpt/jpt.py:JPT.create_leaf_node", "src/probabilistic_model/distributions/distributions.py:DiscreteDistribution.fit"]}
{"id": "C91", "title": "The likelihood of a fitted joint probability tree, and rows of the data are possible", "statement": "The leaves of a fitted JPT split the data into groups. The likelihood of a point is the sum over the groups of the group's share of the data times the product of the densities of the columns of the group: the portion of equal entries for symbols and integers, a histogram over the range of the column for continuous variables. The likelihood of every row of the data is positive.", "quantifier": "all data tables, all parameters, all answers of the impurity computation that respect its contract, all points", "why_tests_cant": "All data sets, all trees that may be learned from them and all points; the failing rows share one value with a group of constant values and differ in another.", "anchors": ["src/probabilistic_model/learning/jpt/jpt.py:JPT.fit", "src/probabilistic_model/learning/jpt/jpt.py:JPT.create_leaf_node", "src/probabilistic_model/learning/nyga_distribution.py:NygaDistribution.fit", "src/probabilistic_model/probabilistic_circuit/nx/probabilistic_circuit.py:ProbabilisticCircuit.log_likelihood", "src/probabilistic_model/distributions/distributions.py:DiracDeltaDistribution.log_likelihood"]}
{"id": "C92", "title": "Layers that pass validation can be evaluated", "statement": "If every layer of a layered circuit passes validate, then log_likelihood_of_nodes_single of a point with one entry per variable does not raise and returns one value per node.", "quantifier": "all layered circuits of any depth and size, all points", "why_tests_cant": "Validation is local to a layer; that the local checks together exclude shape errors anywhere needs an induction over the circuit.", "anchors": ["src/probabilistic_model/probabilistic_circuit/jax/inner_layer.py:SumLayer.validate", "src/probabilistic_model/probabilistic_circuit/jax/inner_layer.py:ProductLayer.validate", "src/probabilistic_model/probabilistic_circuit/jax/inner_layer.py:SparseSumLayer.log_likelihood_of_nodes_single", "src/probabilistic_model/probabilistic_circuit/jax/gaussian_layer.py:GaussianLayer.validate", "src/probabilistic_model/probabilistic_circuit/jax/input_layer.py:DiracDeltaLayer.validate"]}
{"id": "C93", "title": "The moments of a fitted joint probability tree are those of the data", "statement": "The expectation of every numeric variable under a fitted JPT is the mean of its column in the data, and likewise for higher moments and the variance.", "quantifier": "all data tables, all parameters, all answers of the impurity computation that respect its contract, all orders and centers", "why_tests_cant": "All data sets and all trees that may be learned from them; the claim fails for continuous columns only when values repeat inside one cell of the histogram, and symbolic variables make every query raise.", "anchors": ["src/probabilistic_model/learning/jpt/jpt.py:JPT.fit", "src/probabilistic_model/learning/jpt/jpt.py:JPT.create_leaf_node", "src/probabilistic_model/probabilistic_model.py:ProbabilisticModel.expectation", "src/probabilistic_model/probabilistic_model.py:ProbabilisticModel.variance", "src/probabilistic_model/probabilistic_circuit/nx/probabilistic_circuit.py:ProbabilisticCircuit.moment", "src/probabilistic_model/distributions/distributions.py:IntegerDistribution.moment"]}
{"id": "C94", "title": "The conditional probability table of a multinomial distribution holds the conditional distributions", "statement": "from_multinomial_distribution of a distribution over two variables gives one row per state of the other variable, whose entries are the conditional probabilities of the states of the own variable. A network of the other variable's marginal and this table has the joint distribution it came from, and so has its circuit.", "quantifier": "all multinomial distributions over two variables, both orders of the axes, all domain sizes", "why_tests_cant": "The method is not tested at all; it holds for all tables only where every state of the parent is possible and the domain's elements are their own indices.", "anchors": ["src/probabilistic_model/bayesian_network/distributions.py:ConditionalProbabilityTable.from_multinomial_distribution", "src/probabilistic_model/distributions/multinomial.py:MultinomialDistribution.log_conditional", "src/probabilistic_model/distributions/multinomial.py:MultinomialDistribution.marginal", "src/probabilistic_model/probabilistic_model.py:ProbabilisticModel.conditional", "src/probabilistic_model/bayesian_network/bayesian_network.py:BayesianNetwork.as_probabilistic_circuit"]}
