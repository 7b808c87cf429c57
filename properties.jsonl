{"id": "C01", "title": "Named registries behave like an insertion-ordered finite map", "statement": "After any sequence of creating named objects, deleting by name, clearing the registry and looking names up, C[name] returns exactly the object most recently created under that name (if it was not deleted/cleared since) and otherwise raises KeyError; a failing lookup or delete changes nothing; iteration order is the order of first creation since the name was last absent.", "quantifier": "all finite sequences of create/delete/clear/lookup operations, all names", "why_tests_cant": "the claim is over unboundedly long operation histories; unit tests exercise two or three operations", "anchors": ["flavio/classes.py: NamedInstanceClass.__init__/get_instance/del_instance/clear_all", "flavio/classes.py: NamedInstanceMetaclass"]}
{"id": "C02", "title": "Registries of different classes do not interfere", "statement": "Among the classes flavio provides (all deriving directly from the common base), creating, deleting or clearing named objects of one class never changes what is registered under another class, whatever the order in which classes are first used.", "quantifier": "all histories of operations over all classes of a class hierarchy", "why_tests_cant": "depends on which class happened to be instantiated first, a history that tests fix once", "anchors": ["flavio/classes.py: NamedInstanceClass.__init__ (hasattr check on the class)", "flavio/classes.py: clear_all"]}
{"id": "C03", "title": "The latest constraint on a parameter wins", "statement": "After any sequence of adding and removing constraints, a parameter is constrained iff its last mention was an addition, it is then constrained by the distribution of that addition at its position in that addition's parameter list, and all other parameters are unaffected.", "quantifier": "all histories of add_constraint/set_constraint/remove_constraint, any parameter lists, correlated or not", "why_tests_cant": "overlapping multivariate and univariate constraints can be layered in infinitely many orders", "anchors": ["flavio/classes.py: Constraints.add_constraint, set_constraint, remove_constraint, all_parameters"]}
{"id": "C04", "title": "Central values come from the current constraint and the right component", "statement": "get_central_all has exactly the constrained parameters as keys, and the value of each is the component of the central value vector of its current distribution that belongs to it; get_central of an unconstrained parameter raises.", "quantifier": "all reachable constraint sets and all parameters", "why_tests_cant": "position bookkeeping for multivariate distributions must hold for every list and every overwrite order", "anchors": ["flavio/classes.py: Constraints.get_central, get_central_all"]}
{"id": "C05", "title": "Random parameter points respect correlations", "statement": "In one call of get_random_all every distribution object is sampled exactly once, and every parameter gets its own component of the sample of its current distribution, so parameters sharing a distribution always come from the same joint draw; with size=N row i of all parameters of one distribution is the same draw i.", "quantifier": "all reachable constraint sets, all outcomes of the random generator, all N", "why_tests_cant": "a test can only see samples and estimate correlations statistically", "anchors": ["flavio/classes.py: Constraints.get_random_all"]}
{"id": "C06", "title": "Log-probabilities: every live constraint contributes once, with the right components excluded", "statement": "get_logprobability_all returns one entry per distribution that still constrains at least one non-excluded parameter, evaluated at the values of exactly those parameters, with all other (overridden or excluded) components removed from the distribution; excluded and overridden parameters never influence the result.", "quantifier": "all constraint sets reachable by ordinary use (each addition brings its own distribution object and lists each name once), all value dictionaries, all sets of excluded parameters", "why_tests_cant": "interaction of overrides, multivariate distributions and exclusion has unboundedly many configurations", "anchors": ["flavio/classes.py: Constraints.get_logprobability_all"]}
{"id": "C07", "title": "Single-parameter log-probability agrees with the full one", "statement": "get_logprobability_single(p, v) equals the entry for p's distribution that get_logprobability_all gives when every other parameter is excluded.", "quantifier": "all constraint sets reachable by ordinary use (each addition brings its own distribution object and lists each name once), all parameters and values", "why_tests_cant": "two independent code paths must agree on every constraint layout", "anchors": ["flavio/classes.py: Constraints.get_logprobability_single, get_logprobability_all"]}
{"id": "C08", "title": "Saving and reloading constraints preserves them", "statement": "from_yaml_dict(get_yaml_dict()) gives a constraint set with the same constrained parameters, each with an equal distribution at the same position, for every reachable constraint set.", "quantifier": "all histories of additions and removals before saving", "why_tests_cant": "round trips through the serialised form must hold after any history, including removals", "anchors": ["flavio/classes.py: Constraints.get_yaml_dict, from_yaml_dict, remove_constraint"]}
{"id": "C09", "title": "Setting a constraint either fully succeeds or changes nothing", "statement": "set_constraint with a string or dictionary that is rejected (unparsable, both or neither given) leaves every existing constraint as it was; when accepted it changes only the given parameter.", "quantifier": "all constraint sets, parameters, strings and dictionaries", "why_tests_cant": "the space of malformed inputs is infinite", "anchors": ["flavio/classes.py: Constraints.set_constraint"]}
{"id": "C10", "title": "Observable representations convert losslessly", "statement": "argument_format turns the string, tuple, list and dict forms of an observable into each other without loss: converting to dict and back to tuple (and vice versa) returns the original, numbers of arguments are checked, and an unknown name raises.", "quantifier": "all registered observables with any argument lists, all argument values, all input and output formats", "why_tests_cant": "must hold for every observable signature and every value", "anchors": ["flavio/classes.py: Observable.argument_format"]}
{"id": "C11", "title": "The observable taxonomy contains exactly the added paths", "statement": "After any sequence of add_taxonomy calls, taxonomy_dict contains a path of categories iff it is a prefix of an added category path extended by the observable's name.", "quantifier": "all sequences of (observable, taxonomy string)", "why_tests_cant": "trees of unbounded depth and branching", "anchors": ["flavio/classes.py: Observable.add_taxonomy, taxonomy_dict, tree, dicts"]}
{"id": "C12", "title": "Derived observables compute the given function of their inputs", "statement": "Observable.from_function creates an observable whose prediction, for every parameter point, Wilson coefficients and arguments, is the function applied to the predictions of the inputs in order; if any input is missing, has no prediction or different arguments, it raises and creates nothing (the new name not being one of the inputs).", "quantifier": "all registries, lists of inputs, functions, parameter points and arguments", "why_tests_cant": "quantifies over all functions and all evaluation points", "anchors": ["flavio/classes.py: Observable.from_function", "flavio/classes.py: Prediction"]}
{"id": "C13", "title": "Measurements of an observable are found exactly", "statement": "Observable.get_measurements returns exactly the names of the registered measurements that currently constrain the observable (with any arguments), each once, in registration order.", "quantifier": "all registries of measurements and all constraint histories", "why_tests_cant": "unbounded registries and constraint histories", "anchors": ["flavio/classes.py: Observable.get_measurements"]}
{"id": "C14", "title": "Auxiliary quantities follow the configured implementation", "statement": "The prediction of an auxiliary quantity is that of the implementation currently named in the configuration; a missing configuration entry or unregistered implementation raises; changing the configuration for one quantity affects no other.", "quantifier": "all configurations, registries and change histories", "why_tests_cant": "state is global and mutable; tests fix one configuration", "anchors": ["flavio/classes.py: AuxiliaryQuantity.get_implementation", "flavio/classes.py: Implementation"]}
{"id": "C15", "title": "A rejected Implementation leaves no trace", "statement": "If constructing an Implementation raises because its quantity does not exist, the registry of implementations is unchanged.", "quantifier": "all registries and names", "why_tests_cant": "crash-point property: requires inspecting state after every failing constructor call", "anchors": ["flavio/classes.py: Implementation.__init__"]}
{"id": "C16", "title": "Implementation.show_all lists every implementation", "statement": "show_all maps every quantity to all of its registered implementations.", "quantifier": "all registries of implementations", "why_tests_cant": "tests use one implementation per quantity", "anchors": ["flavio/classes.py: Implementation.show_all"]}
{"id": "C17", "title": "A measurement likelihood uses exactly the selected measurements", "statement": "The measurements entering a MeasurementLikelihood are exactly the registered ones that constrain at least one of its observables, that are not pseudo-measurements (unless requested), and that are not excluded / are included (at most one of the two lists given); construction succeeds exactly if these measurements constrain every observable.", "quantifier": "all registries, observable lists, include and exclude lists", "why_tests_cant": "selection logic over unbounded registries and all combinations of include/exclude/None/empty", "anchors": ["flavio/statistics/likelihood.py: MeasurementLikelihood.get_measurements, __init__"]}
{"id": "C18", "title": "The log-likelihood is the sum over measurements of the constraints on its observables", "statement": "log_likelihood_pred equals the sum, over selected measurements and their constraints, of the log-probability of the predictions of the observables that are in the likelihood and not excluded; predictions of any other observable never influence it.", "quantifier": "all measurement registries, prediction dictionaries and exclusion lists", "why_tests_cant": "set algebra with overlapping measurements, exclusion and correlated constraints has unboundedly many cases", "anchors": ["flavio/statistics/likelihood.py: MeasurementLikelihood.log_likelihood_pred", "flavio/classes.py: Constraints.get_logprobability_all"]}
{"id": "C19", "title": "The number of observations counts (measurement, observable) pairs", "statement": "get_number_observations is the number of pairs of a selected measurement and a non-excluded observable of the likelihood that it constrains.", "quantifier": "all registries, observable lists and exclusion lists", "why_tests_cant": "counting claim over unbounded registries", "anchors": ["flavio/statistics/likelihood.py: MeasurementLikelihood.get_number_observations"]}
{"id": "C20", "title": "Cached predictions are the predictions", "statement": "Whatever sequence of calls was made before, get_predictions_par(par, wc) returns the predictions at the parameters and Wilson coefficients of this call.", "quantifier": "all call histories and all parameter dictionaries", "why_tests_cant": "a stale cache only shows for particular successive pairs of arguments", "anchors": ["flavio/statistics/likelihood.py: MeasurementLikelihood.get_predictions_par"]}
{"id": "C21", "title": "Parameter likelihood: only the listed parameters contribute", "statement": "ParameterLikelihood.log_likelihood_par is the sum of the log-probabilities of the constraints restricted to the listed parameters, independent of the values of all other parameters; get_central lists their central values in order; the total likelihood is the sum of parameter and experimental parts.", "quantifier": "all parameter constraint sets, parameter lists and values", "why_tests_cant": "independence from other values is a universally quantified claim", "anchors": ["flavio/statistics/likelihood.py: ParameterLikelihood, Likelihood"]}
{"id": "C22", "title": "Loading a covariance reorders it to the requested observables", "statement": "After load_dict, entry (i, j) of the covariance is the entry of the loaded matrix for observables i and j of this object, whatever the order or additional observables in the file; missing observables raise; saving and loading is the identity.", "quantifier": "all observable lists, supersets, orders and matrices of any size", "why_tests_cant": "all permutations of all sizes", "anchors": ["flavio/statistics/likelihood.py: SMCovariance.load_dict/save/load, MeasurementCovariance.load_dict"]}
{"id": "C23", "title": "Covariance caching: recompute exactly when forced or absent", "statement": "get returns the cached covariance iff one exists and force is False, otherwise the freshly computed one, which is then cached; load replaces the cache; save requires a cached value.", "quantifier": "all sequences of get/load/save calls with any arguments", "why_tests_cant": "state-machine claim over call histories", "anchors": ["flavio/statistics/likelihood.py: SMCovariance.get/save/load, MeasurementCovariance.get"]}
{"id": "C24", "title": "Pseudo-measurements never leak into other likelihoods", "statement": "Creating FastLikelihoods and making their measurements in any order never changes the measurements used by any MeasurementLikelihood that did not ask for pseudo-measurements, and each FastLikelihood evaluates exactly its own pseudo-measurement.", "quantifier": "all interleavings of creating and using FastLikelihood instances", "why_tests_cant": "interleavings over a shared global registry", "anchors": ["flavio/statistics/likelihood.py: FastLikelihood.make_measurement", "flavio/statistics/likelihood.py: MeasurementLikelihood.get_measurements"]}
{"id": "C25", "title": "The experimental average over measurements is the product of Gaussians", "statement": "For Gaussian measurements the weighted mean and covariance computed by MeasurementCovariance define, up to a constant, the product of the individual likelihoods, independent of the order of the measurements.", "quantifier": "all numbers of measurements, all means and positive variances (any dimension)", "why_tests_cant": "algebraic identity over the reals", "anchors": ["flavio/statistics/likelihood.py: MeasurementCovariance.compute"]}
{"id": "C26", "title": "Bracket-notation constraints mean what they say", "statement": "A string like '1.67(3)(5) e-3' is read as the central value and one symmetric error per bracket; an error written with digits only counts in units of the last digit of the central value, an error with a decimal point is taken literally; all are multiplied by the power of ten.", "quantifier": "all digit strings, numbers of errors, exponents and permitted spacings", "why_tests_cant": "infinitely many strings; regular expressions can match unintended parts", "anchors": ["flavio/_parse_errors.py: _pattern_brackets, errors_from_string, constraints_from_string"]}
{"id": "C27", "title": "Plus-minus constraints mean what they say", "statement": "A string like '(1.67 +- 0.3 + 0.1 - 0.2) e-3' (with +-, ± or \\pm) is read as central value, one symmetric error per ± term and one (right, left) pair per '+ a - b' term, all multiplied by the power of ten.", "quantifier": "all digit strings, numbers and kinds of errors, exponents", "why_tests_cant": "infinitely many strings", "anchors": ["flavio/_parse_errors.py: _pattern_plusminus, errors_from_string, constraints_from_string"]}
{"id": "C28", "title": "Every accepted constraint string yields a usable constraint", "statement": "Any string accepted by the constraint parser produces a non-empty list of distributions, so that set_constraint either raises the documented ValueError or sets a constraint.", "quantifier": "all strings", "why_tests_cant": "quantifies over all strings", "anchors": ["flavio/_parse_errors.py: constraints_from_string", "flavio/statistics/probability.py: convolve_distributions"]}
{"id": "C29", "title": "Limits, ranges, lognormal factors and plain numbers are recognised", "statement": "'< x @ y% CL' gives an upper limit x at level y/100, '[a, b]' a uniform distribution on exactly [a, b] (and an error if b < a), 'x */ f' a lognormal with that centre and factor, a plain number a delta distribution; each such string is recognised as that kind and no other.", "quantifier": "all numbers, exponents and permitted spacings", "why_tests_cant": "infinitely many strings and five competing patterns", "anchors": ["flavio/_parse_errors.py: limit_from_string, range_from_string, lognormal_from_string, constraints_from_string"]}
{"id": "C30", "title": "The citation set is exactly what was registered", "statement": "After any sequence of register, clear and reset, the citation set contains exactly the keys registered since the last clear/reset (plus the defaults after a reset); registering an unknown key raises and changes nothing; repeated registration has no further effect.", "quantifier": "all sequences of register/clear/reset, all databases of known keys", "why_tests_cant": "history property", "anchors": ["flavio/citations.py: Citations.register, clear, reset, set"]}
{"id": "C31", "title": "Collecting citations is properly scoped", "statement": "Inside 'with citations.collect()' registrations go only to the collected set, which starts with no registered keys; on leaving — normally or by exception, also nested — the outer citations object is restored unchanged.", "quantifier": "all programs of nested scopes, registrations and exceptions", "why_tests_cant": "arbitrary nesting and exception points", "anchors": ["flavio/citations.py: CitationScope", "flavio/classes.py: Observable.theory_citations"]}
{"id": "C32", "title": "Reported parameter dependence is sound", "statement": "If a prediction accesses parameters by indexing, then changing any parameter not in get_dependent_parameters_sm does not change the prediction.", "quantifier": "all prediction functions, all parameter points", "why_tests_cant": "quantifies over functions and over all alternative parameter points", "anchors": ["flavio/functions.py: AwareDict, get_dependent_parameters_sm"]}
{"id": "C33", "title": "The error budget groups parameters exactly by shared constraint", "statement": "The keys of sm_error_budget partition the parameters the observable depends on; two parameters are in one group iff they share a constraint; in each variation only the group's parameters deviate from the central values, and all of them come from the same random draw.", "quantifier": "all constraint sets, observables and random draws", "why_tests_cant": "partition claim over all correlation structures", "anchors": ["flavio/functions.py: sm_error_budget"]}
{"id": "C34", "title": "SM covariance varies exactly the requested parameters", "statement": "In every sample used by sm_covariance the listed parameters take their random values of that sample, all others their central values; with 'all' every parameter is random; serial and parallel evaluation use the same points in the same order.", "quantifier": "all parameter sets, lists of varied parameters, N, numbers of threads", "why_tests_cant": "schedules and subsets", "anchors": ["flavio/functions.py: sm_covariance, _get_prediction_array_sm"]}
{"id": "C35", "title": "Combining measurements of one observable", "statement": "combine_measurements uses exactly the non-pseudo (and included) measurements that currently constrain the observable, reduces correlated ones to that observable's component, returns the single constraint unchanged if there is one, and raises if there is none.", "quantifier": "all registries, include lists, observables", "why_tests_cant": "unbounded registries", "anchors": ["flavio/functions.py: combine_measurements"]}
{"id": "C36", "title": "Parallel and serial uncertainties evaluate the same function calls", "statement": "np_uncertainty with threads>1 evaluates the observable at the same parameter points with the same argument binding as with threads=1.", "quantifier": "all observables with any argument names, positional/keyword splits", "why_tests_cant": "all argument splits", "anchors": ["flavio/functions.py: np_uncertainty"]}
{"id": "C37", "title": "Convolution of Gaussians", "statement": "Convolving normal distributions around a common centre yields a normal distribution with that centre and with variance equal to the sum of variances, independent of order; in the mode for sums of random variables the centres add; delta distributions are neutral; a single distribution is returned unchanged; distributions with different centres are rejected in the mode for a common centre.", "quantifier": "all lists of distributions, all variances", "why_tests_cant": "identity over all reals and list lengths", "anchors": ["flavio/statistics/probability.py: convolve_distributions, _convolve_gaussians"]}
{"id": "C38", "title": "Combination of Gaussians is the product of their densities", "statement": "Combining normal distributions gives the normal distribution whose log-density is, up to a constant, the sum of the individual ones, independent of order; the combined standard deviation is not larger than any of the inputs.", "quantifier": "all non-empty lists of centres and positive standard deviations", "why_tests_cant": "identity over reals and lengths", "anchors": ["flavio/statistics/probability.py: combine_distributions, _combine_gaussians"]}
{"id": "C39", "title": "Combination with exactly known values", "statement": "Combining distributions that include delta distributions returns a delta at their common value, and raises if two deltas disagree.", "quantifier": "all lists of distributions", "why_tests_cant": "all orders and mixtures", "anchors": ["flavio/statistics/probability.py: combine_distributions"]}
{"id": "C40", "title": "Constructors reject invalid widths and keep valid ones", "statement": "The constructors of the normal, asymmetric normal, half-normal, log-normal (and Gaussian upper limit) distributions raise ValueError exactly for the documented invalid widths, factors and limits and otherwise store exactly the given numbers; the central value of a documented distribution (log-normal: with positive central value) lies in the reported support.", "quantifier": "all numeric arguments", "why_tests_cant": "all reals", "anchors": ["flavio/statistics/probability.py: NormalDistribution, AsymmetricNormalDistribution, UniformDistribution, HalfNormalDistribution, LogNormalDistribution, GaussianUpperLimit, DiscreteUniformDistribution, DeltaDistribution"]}
{"id": "C41", "title": "Log-density relative to the maximum", "statement": "delta_logpdf is zero at the central value for every distribution (also after excluding components), and for unimodal normal-type distributions it is never positive.", "quantifier": "all distributions, exclusion tuples and points", "why_tests_cant": "all reals, all subsets of components", "anchors": ["flavio/statistics/probability.py: ProbabilityDistribution.delta_logpdf, MultivariateNormalDistribution.logpdf"]}
{"id": "C42", "title": "Removing components of a multivariate normal is marginalisation", "statement": "reduce_dimension and logpdf with exclude use the mean and covariance with exactly the excluded rows and columns removed, preserving the order of the rest; evaluating with exclude equals evaluating the reduced distribution.", "quantifier": "all dimensions, all exclusion sets", "why_tests_cant": "all sizes and subsets", "anchors": ["flavio/statistics/probability.py: MultivariateNormalDistribution.reduce_dimension, logpdf"]}
{"id": "C43", "title": "Internal rescaling does not change the multivariate normal density", "statement": "The log-density computed through the internally rescaled variables equals that of the normal distribution with the given central values and covariance.", "quantifier": "all dimensions, covariances and points", "why_tests_cant": "identity over reals for every dimension", "anchors": ["flavio/statistics/probability.py: MultivariateNormalDistribution.__init__, logpdf"]}
{"id": "C44", "title": "Distribution names convert back and forth", "statement": "The string name of a distribution class consists of the words of its name in small letters, joined by underscores, without 'distribution' (except in front). For every collection of classes with different string names, a dictionary naming a distribution selects exactly the class of that name and raises KeyError for every other text, and string_to_class finds a class by its own name and by its string name; flavio's classes are such a collection.", "quantifier": "all distribution classes and all strings", "why_tests_cant": "the set of accepted strings is infinite; injectivity is global", "anchors": ["flavio/statistics/probability.py: class_to_string, string_to_class, class_from_string, _camel_to_underscore"]}
{"id": "C45", "title": "Numerical distributions are probability distributions", "statement": "For every table of ascending positions and non-negative densities (not all but the last zero), NumericalDistribution succeeds exactly if the central value is in the range, the density integrates to one, is nowhere negative and zero outside the support, the cumulative distribution rises monotonically from 0 to 1 over the support, the quantile function inverts it, generated random values lie in the support, and the default central value is a position of largest density.", "quantifier": "all tables, all uniform random inputs", "why_tests_cant": "all tables of all lengths", "anchors": ["flavio/statistics/probability.py: NumericalDistribution"]}
{"id": "C46", "title": "Correlation matrices are completed correctly", "statement": "A number x stands for the matrix with ones on the diagonal and x elsewhere; the upper right triangle (rows beginning with the diagonal) is mirrored if it is zero or has an element above 1e-8; a symmetric matrix is kept. A list is accepted exactly if it has the right number of lines, each of full length or beginning at the diagonal, with 1 on the diagonal; otherwise ValueError (TypeError for other types).", "quantifier": "all dimensions and all entries", "why_tests_cant": "all sizes; tolerance effects", "anchors": ["flavio/measurements.py: _fix_correlation_matrix"]}
{"id": "C47", "title": "SM running passes every quark threshold exactly once", "statement": "Running parameters between two scales integrates a contiguous chain of intervals from the initial to the final scale, split exactly at the thresholds in between, each with the number of active flavours of that interval.", "quantifier": "all pairs of scales, all orderings with respect to the thresholds", "why_tests_cant": "all orderings incl. equality with thresholds, up and down", "anchors": ["flavio/physics/running/running.py: rg_evolve_sm, get_nf"]}
{"id": "C48", "title": "Configuration changes are honoured", "statement": "Results of running parameters always correspond to the current configuration (e.g. threshold values), whatever was computed before.", "quantifier": "all histories of configuration changes and calls", "why_tests_cant": "stale caches only show for particular histories", "anchors": ["flavio/physics/running/running.py: lru_cache'd rg_evolve_sm wrapper"]}
{"id": "C49", "title": "List deduplication keeps first occurrences", "statement": "list_deduplicate returns the distinct elements in order of first occurrence.", "quantifier": "all lists", "why_tests_cant": "all lists", "anchors": ["flavio/io/instanceio.py: list_deduplicate"]}
{"id": "C50", "title": "Saving only parameter differences loses nothing", "statement": "Loading the saved difference to the default parameters on top of the defaults reproduces the constraint on every parameter.", "quantifier": "all histories of modifications of a copy of the default parameters", "why_tests_cant": "history property", "anchors": ["flavio/io/instanceio.py: get_par_diff, coerce_par_obj"]}
{"id": "C51", "title": "A dumped likelihood loads to an equivalent likelihood", "statement": "For every likelihood object, dump succeeds and load(dump(x)) uses the same observables, parameters, constraints and measurement selection.", "quantifier": "all likelihood objects", "why_tests_cant": "all configurations", "anchors": ["flavio/statistics/likelihood.py: _input_schema_dict/_output_schema_dict", "flavio/io/instanceio.py: YAMLLoadable"]}
{"id": "C52", "title": "CKM products satisfy unitarity and angles sum to pi", "statement": "For every unitary CKM matrix: xi(a, bc) is the product of one element and one conjugated element of the matrix named by the quarks, its sums over the intermediate flavour are one for equal and zero for different external flavours, exchanging the external flavours conjugates, other names are refused, and the angles alpha, beta, gamma of the unitarity triangle have equal sign and sum to pi or -pi.", "quantifier": "all parameter values", "why_tests_cant": "all reals", "anchors": ["flavio/physics/ckm.py: xi, get_ckmangle_alpha/beta/gamma, ckm_* parametrisations"]}
{"id": "C53", "title": "CP conjugation of parameters is an involution", "statement": "Conjugating parameters/Wilson coefficients twice returns the original, the names and their order are kept, exactly the parameters gamma and delta / the imaginary parts change sign; with the standard and the tree parametrisation the conjugated parameters give the conjugated CKM matrix.", "quantifier": "all parameter dictionaries and coefficient dictionaries", "why_tests_cant": "all dictionaries", "anchors": ["flavio/physics/common.py: conjugate_par, conjugate_wc", "flavio/functions.py: AwareDict"]}
{"id": "C54", "title": "Kallen function and adding dictionaries", "statement": "lambda_K is totally symmetric, equals its polynomial where that is positive and zero elsewhere, and is positive exactly where one of the three masses exceeds the sum of the others; add_dict adds values key by key over all inputs, independent of order.", "quantifier": "all reals / all lists of dictionaries", "why_tests_cant": "all reals, all lists", "anchors": ["flavio/physics/common.py: lambda_K, add_dict"]}
{"id": "C55", "title": "Meson mixing observables are physical", "statement": "For all mixing amplitudes: q/p with M12 and Gamma12 gives the eigenstates of the mixing matrix, DeltaM and DeltaGamma are the differences of their masses and widths and satisfy the textbook relations with |M12|, |Gamma12|, x, y, x12, y12, phi12 and |q/p|; a_fs is Im(Gamma12/M12); the observables do not depend on the phase convention of mesons or quarks; CP conjugation leaves mass and width differences alone and changes the sign of the asymmetries; S lies in [-1,1] and the positive mass difference is not negative.", "quantifier": "all complex M12, Gamma12 and decay amplitudes, all CKM matrices and phases", "why_tests_cant": "all complex numbers", "anchors": ["flavio/physics/mesonmixing/common.py: q_over_p, DeltaM, DeltaGamma, a_fs", "flavio/physics/mesonmixing/observables.py"]}
{"id": "C56", "title": "Angular observables are physical", "statement": "For all helicity amplitudes and lepton masses the angular distribution of B -> V l1 l2 built from the twelve angular coefficients is the sum over lepton helicities of squared moduli of amplitudes, hence non-negative at every angle; the differential rate is non-negative, F_L lies in [0,1] in the absence of tensor amplitudes, |A_FB| <= 3/4, the CP-averaged and CP-asymmetric coefficients S_i and A_i reconstruct the coefficients of the decay and of its conjugate, the conventions of theory and experiment differ by documented signs, and the CP asymmetry of the rate lies in [-1,1].", "quantifier": "all complex helicity amplitudes, all physical q2 and lepton masses, all angles", "why_tests_cant": "all complex numbers and angles", "anchors": ["flavio/physics/bdecays/angular.py: angularcoeffs_general_v, helicity_amps_v", "flavio/physics/bdecays/bvll/observables.py: S_theory, A_theory, FL, AFB_theory, dGdq2"]}
{"id": "C57", "title": "Robust minimisation returns the first success", "statement": "minimize_robust returns the result of the first successful attempt in the documented order, or the last attempt if none succeeds; maximize_robust returns the result with the sign of the objective restored.", "quantifier": "all objective functions and all behaviours of the underlying optimisers", "why_tests_cant": "quantifies over optimiser behaviours", "anchors": ["flavio/math/optimize.py: minimize_robust, maximize_robust"]}
{"id": "C58", "title": "A subclass keeps its own registry", "statement": "A user-defined subclass of a named-object class keeps its objects apart from those of its base class: creating, deleting or clearing objects of the subclass does not change the base class's registry.", "quantifier": "all class hierarchies and histories", "why_tests_cant": "depends on which class is used first", "anchors": ["flavio/classes.py: NamedInstanceClass.__init__ (hasattr sees inherited attributes)"]}
{"id": "C59", "title": "One distribution object used for several parameters counts for each of them", "statement": "If the same distribution object is added as the constraint of several parameters, get_logprobability_all accounts for each of these parameters.", "quantifier": "all histories of additions", "why_tests_cant": "aliasing of objects is a property of the history, not of one call", "anchors": ["flavio/classes.py: Constraints.get_logprobability_all (result keyed by constraint object)"]}
{"id": "C60", "title": "A constrained, non-excluded parameter always contributes to the log-probability", "statement": "Whenever a parameter is constrained and not excluded, its distribution contributes to get_logprobability_all.", "quantifier": "all reachable constraint sets", "why_tests_cant": "quantifies over all constraint layouts, including lists with repeated names", "anchors": ["flavio/classes.py: Constraints.add_constraint, get_logprobability_all"]}
{"id": "C61", "title": "One-dimensional right and left errors belong to the right parameter", "statement": "get_1d_errors_rightleft gives, for exactly the constrained parameters in order, the (right, left) errors of that parameter's component of its current distribution.", "quantifier": "all reachable constraint sets", "why_tests_cant": "index bookkeeping over arbitrary histories", "anchors": ["flavio/classes.py: Constraints.get_1d_errors_rightleft"]}
{"id": "C62", "title": "Every saved constraint object can be loaded again", "statement": "Whatever get_yaml_dict returns for an object is accepted by from_yaml_dict of the same class.", "quantifier": "all objects, with or without constructor arguments and public attributes", "why_tests_cant": "quantifies over all objects", "anchors": ["flavio/classes.py: Constraints.get_yaml_dict, from_yaml_dict", "flavio/classes.py: YAMLLoadable"]}
{"id": "C63", "title": "Format 'list' gives the name of an observable without arguments", "statement": "For an observable without arguments, argument_format(..., 'list') returns its name, as documented, whichever form (string or dictionary) it is given in.", "quantifier": "all observables without arguments, all input forms", "why_tests_cant": "quantifies over all names and forms", "anchors": ["flavio/classes.py: Observable.argument_format (list(t) of a string)"]}
{"id": "C64", "title": "Redefining an observable in terms of itself is safe", "statement": "Observable.from_function with a name that is also among the inputs either defines the new prediction from the old one or raises leaving the existing observable and its prediction unchanged.", "quantifier": "all registries and input lists", "why_tests_cant": "crash-point property on global state", "anchors": ["flavio/classes.py: Observable.from_function"]}
{"id": "C65", "title": "The implementation used for an auxiliary quantity belongs to that quantity", "statement": "AuxiliaryQuantity.prediction only ever uses an implementation that was declared for this quantity.", "quantifier": "all configurations", "why_tests_cant": "configurations are arbitrary user data", "anchors": ["flavio/classes.py: AuxiliaryQuantity.get_implementation"]}
{"id": "C66", "title": "Surplus observable arguments are rejected in every form", "statement": "A dictionary naming an observable together with an argument it does not have is rejected, as the equivalent tuple is.", "quantifier": "all observables and dictionaries", "why_tests_cant": "quantifies over all dictionaries", "anchors": ["flavio/classes.py: Observable.argument_format"]}
{"id": "C67", "title": "An include list is always honoured", "statement": "If include_measurements is given, no measurement outside it enters the likelihood.", "quantifier": "all option combinations accepted by the constructor", "why_tests_cant": "quantifies over all combinations of the two lists, None and empty (a file with 'exclude_measurements: null' arrives as the empty list)", "anchors": ["flavio/statistics/likelihood.py: MeasurementLikelihood.__init__, get_measurements"]}
{"id": "C68", "title": "Predictions follow changes of the registered predictions and implementations", "statement": "After a prediction or a configured implementation is replaced, get_predictions_par returns the new predictions.", "quantifier": "all call histories", "why_tests_cant": "history property of a cache", "anchors": ["flavio/statistics/likelihood.py: MeasurementLikelihood.get_predictions_par"]}
{"id": "C69", "title": "A ParameterLikelihood can be evaluated with its default arguments", "statement": "log_likelihood_par and get_central of a ParameterLikelihood constructed without a parameter list return a value.", "quantifier": "all parameter constraint sets", "why_tests_cant": "quantifies over all constraint sets", "anchors": ["flavio/statistics/likelihood.py: ParameterLikelihood"]}
{"id": "C70", "title": "The correlation warning counts the right measurements", "statement": "For a fit observable o and another observable p, the number reported by the correlation warning is the number of selected measurements constraining o jointly with p; fit observables are never reported.", "quantifier": "all registries and observable lists", "why_tests_cant": "counting over unbounded registries", "anchors": ["flavio/statistics/likelihood.py: MeasurementLikelihood._warn_meas_corr"]}
{"id": "C71", "title": "A one-observable likelihood gets numbers from a larger covariance file", "statement": "Loading a file with several observables into an object for a single observable stores the number (central value and variance) that computing would store.", "quantifier": "all files and observables", "why_tests_cant": "quantifies over all files", "anchors": ["flavio/statistics/likelihood.py: MeasurementCovariance.load_dict, SMCovariance.load_dict"]}
{"id": "C72", "title": "No part of an accepted constraint string is silently ignored", "statement": "Two accepted constraint strings with the same central value but different lists of errors give different constraints: every error written in an accepted string enters the resulting distributions.", "quantifier": "all strings accepted by the constraint parser", "why_tests_cant": "quantifies over all strings; the pattern for the whole string and those for the single errors are independent", "anchors": ["flavio/_parse_errors.py: _pattern_plusminus, pattern_symmetric_err, pattern_asymmetric_err, errors_from_string"]}
{"id": "C73", "title": "Every parameter read by a prediction is reported", "statement": "get_dependent_parameters_sm reports every parameter a prediction depends on, however it reads it (indexing, get with default, iteration, through copies), and evaluating with tracking gives the same value as without.", "quantifier": "all prediction functions and parameter points", "why_tests_cant": "quantifies over all programs", "anchors": ["flavio/functions.py: AwareDict, get_dependent_parameters_sm", "flavio/physics/bdecays/formfactors/b_p/bcl.py: par.get", "flavio/physics/common.py: conjugate_par"]}
{"id": "C74", "title": "Serial and parallel uncertainties reject the same calls", "statement": "np_uncertainty raises for an argument given both by position and by name, whatever the number of threads.", "quantifier": "all observables, argument splits and thread numbers", "why_tests_cant": "quantifies over all calls", "anchors": ["flavio/functions.py: np_uncertainty"]}
{"id": "C75", "title": "sm_covariance accepts observables in dictionary form and leaves them unchanged", "statement": "An observable given as a dictionary, a form Observable.argument_format accepts, is evaluated at every sample point, and the caller's dictionary is not modified.", "quantifier": "all observables in dictionary form, all N", "why_tests_cant": "needs two samples and a shared mutable argument", "anchors": ["flavio/functions.py: sm_covariance, _get_prediction_array_sm", "flavio/classes.py: Observable.argument_format"]}
{"id": "C76", "title": "The asymmetric normal density is continuous and is what is sampled", "statement": "The density of an asymmetric normal distribution is continuous everywhere, and it is the mixture that get_random draws from: a half-normal of the left width below the centre with probability left/(left+right), a half-normal of the right width above it otherwise.", "quantifier": "all centres, widths, points and random inputs", "why_tests_cant": "identity and continuity over the reals", "anchors": ["flavio/statistics/probability.py: AsymmetricNormalDistribution.logpdf, get_random"]}
{"id": "C77", "title": "An upper limit has the stated confidence level below it", "statement": "For GaussianUpperLimit and GammaUpperLimit, the cumulative distribution at the limit equals the confidence level.", "quantifier": "all limits, confidence levels in (0,1) and counts", "why_tests_cant": "identity over the reals and over the (assumed) properties of the quantile functions", "anchors": ["flavio/statistics/probability.py: GaussianUpperLimit, GammaUpperLimit, GammaDistributionPositive.cdf, ppf"]}
{"id": "C78", "title": "Any two numbers of counts determine the third", "statement": "GammaCountingProcess gives the same distribution whichever two (or all three) of total, background and signal counts are given, and raises ValueError if fewer than two are given, if the given total or background is negative, or if three numbers contradict each other by more than a relative 1e-15.", "quantifier": "all counts with total = signal + background", "why_tests_cant": "all reals, all subsets of arguments", "anchors": ["flavio/statistics/probability.py: GammaCountingProcess"]}
{"id": "C79", "title": "Upper limits accept any two numbers of counts", "statement": "GammaUpperLimit accepts any two of the three numbers of counts, like GammaCountingProcess.", "quantifier": "all pairs of arguments", "why_tests_cant": "all subsets of arguments", "anchors": ["flavio/statistics/probability.py: GammaUpperLimit"]}
{"id": "C80", "title": "The support of a log-normal distribution contains its central value", "statement": "For every central value the constructor accepts (documented: positive or negative), the reported support is an interval containing it.", "quantifier": "all nonzero central values, all factors > 1", "why_tests_cant": "sign cases over the reals", "anchors": ["flavio/statistics/probability.py: LogNormalDistribution"]}
{"id": "C81", "title": "Error bars of a log-normal distribution are multiplicative", "statement": "The n-sigma range of a log-normal distribution goes from the central value divided by factor^n to the central value times factor^n (for negative central values the other way round), and both errors are non-negative.", "quantifier": "all central values, factors and n >= 0", "why_tests_cant": "identity over the reals", "anchors": ["flavio/statistics/probability.py: LogNormalDistribution.get_error_left, get_error_right, ppf"]}
{"id": "C82", "title": "Ranges are validated", "statement": "UniformDistribution and DiscreteUniformDistribution accept only non-empty ranges, the latter only central values within the range.", "quantifier": "all arguments", "why_tests_cant": "all reals", "anchors": ["flavio/statistics/probability.py: UniformDistribution, DiscreteUniformDistribution"]}
{"id": "C83", "title": "Distributions survive conversion to a dictionary and back", "statement": "dict2dist applied to the dictionary of a distribution (as written by get_dict / get_yaml) returns an equal distribution, for every distribution a constructor accepts.", "quantifier": "all distributions of all classes", "why_tests_cant": "quantifies over all instances", "anchors": ["flavio/statistics/probability.py: ProbabilityDistribution.get_dict, get_yaml, dict2dist"]}
{"id": "C84", "title": "The cumulative distribution is the integral of the density", "statement": "For a NumericalDistribution, cdf(t) equals the integral of pdf up to t.", "quantifier": "all tables, all t", "why_tests_cant": "identity over the reals", "anchors": ["flavio/statistics/probability.py: NumericalDistribution.__init__, cdf, pdf"]}
{"id": "C85", "title": "Error ranges of a numerical distribution cover the requested probability", "statement": "The 'central' errors cover the requested fraction of the probability on each side of the central value and are not negative, 'limit' errors give one-sided limits with the requested probability, unknown methods raise ValueError.", "quantifier": "all tables, all confidence levels", "why_tests_cant": "identity over the reals for all tables", "anchors": ["flavio/statistics/probability.py: NumericalDistribution.get_error_left, get_error_right"]}
{"id": "C86", "title": "Combining numerical distributions multiplies their densities", "statement": "The combination of numerical distributions lives on the intersection of their supports, its density on the grid is the normalised product of the densities; without overlap ValueError is raised.", "quantifier": "all lists of numerical distributions", "why_tests_cant": "all tables and list lengths", "anchors": ["flavio/statistics/probability.py: _combine_numerical, combine_distributions"]}
{"id": "C87", "title": "Convolving numerical distributions adds random variables", "statement": "For two numerical distributions, the tabulated density of the convolution at a grid point is the probability of all pairs of grid values whose sum falls into the grid interval ending there; central value and support are the sums (of the deviations).", "quantifier": "all pairs of numerical distributions, both treatments of central values", "why_tests_cant": "all tables", "anchors": ["flavio/statistics/probability.py: _convolve_numerical"]}
{"id": "C88", "title": "Conversion to a table keeps the distribution", "statement": "NumericalDistribution.from_pd keeps central value and support, and its density at the grid points is the original density up to one normalisation factor.", "quantifier": "all distributions with a proper support", "why_tests_cant": "all distribution parameters", "anchors": ["flavio/statistics/probability.py: NumericalDistribution.from_pd"]}
{"id": "C89", "title": "Every accepted table is usable", "statement": "If NumericalDistribution accepts a table of ascending positions and non-negative, not all vanishing densities, then cdf, ppf and get_random return numbers.", "quantifier": "all tables", "why_tests_cant": "all tables", "anchors": ["flavio/statistics/probability.py: NumericalDistribution.__init__"]}
{"id": "C90", "title": "Loading a file adds its constraints in order", "statement": "from_yaml / from_yaml_dict, with or without an existing instance, either raises or adds the constraints of all entries (full or string form) one after the other: afterwards every parameter has the constraint of the last entry mentioning it, or the one it had before; metadata set attributes and nothing else changes. Entries under a wrong key are rejected.", "quantifier": "all files, all existing objects", "why_tests_cant": "all files and all prior histories", "anchors": ["flavio/classes.py: Constraints.from_yaml_dict"]}
{"id": "C91", "title": "string_to_class gives a distribution or raises NameError", "statement": "For every text, string_to_class returns a distribution class or raises NameError, and different class names have different string names. (Fails: the text is evaluated as Python, so 'string' and 'np' return whatever they evaluate to in the module; and Foo and FooDistribution share a string name.)", "quantifier": "all texts, all class names", "why_tests_cant": "the set of texts is infinite", "anchors": ["flavio/statistics/probability.py: string_to_class, class_to_string"]}
{"id": "C92", "title": "Completed correlation matrices are symmetric with the given elements", "statement": "Whatever list is accepted as correlation matrix, the result is symmetric and has the given elements above the diagonal; the documented example is accepted. (Fails: different elements above and below the diagonal are added, a triangle with elements up to 1e-8 is not mirrored, and the documented example is rejected.)", "quantifier": "all lists", "why_tests_cant": "all entries; tolerance effects", "anchors": ["flavio/measurements.py: _fix_correlation_matrix"]}
{"id": "C93", "title": "Measurement files are loaded as written", "statement": "Loading a file succeeds exactly if every measurement in it is well described. Afterwards every measurement has exactly the attributes and constraints written: one multivariate constraint for 'observables', one constraint per entry without 'correlation', and with 'correlation' one multivariate normal distribution whose covariance is the product of the total errors (quadratic sum; product of the two sides for asymmetric ones) and the completed correlation matrix; argument values are put in the order of the observable's arguments. Measurements not in the file are unchanged.", "quantifier": "all files, all prior registries", "why_tests_cant": "all files and all prior histories", "anchors": ["flavio/measurements.py: _load, read_file", "flavio/classes.py: Measurement"]}
{"id": "C94", "title": "A failed load changes nothing and reports the problem", "statement": "If read_file raises, the registered measurements are unchanged and the exception is that of the problem in the file. (Fails: an erroneous measurement replaces an existing one by an incomplete one; a list in the new format always gives AttributeError; a single measurement in the new format creates in addition a measurement named like the first key of the dictionary.)", "quantifier": "all files", "why_tests_cant": "needs every failure point", "anchors": ["flavio/measurements.py: read_file, _load, _load_new"]}
{"id": "C95", "title": "Correlated parameters keep their variances", "statement": "Reading a group of correlated parameters succeeds only for existing parameters and a covariance that passes the positivity test; the covariance has the total variances on the diagonal and off the diagonal the product of errors and given correlation, all multiplied by one, or all by 0.99.", "quantifier": "all groups", "why_tests_cant": "all sizes and values", "anchors": ["flavio/parameters.py: _read_yaml_object_values_correlated"]}
{"id": "C96", "title": "Particle data determine masses and lifetimes", "statement": "After reading a PDG table, every particle known to flavio has a constraint on its mass and, if all widths are given and non-zero, on its lifetime 1/width, with the converted values; all other parameters are unchanged; the order of particles does not matter; names and PDG numbers correspond one to one; reading succeeds exactly if the uncertainties are positive.", "quantifier": "all tables, all orders", "why_tests_cant": "set iteration order is arbitrary", "anchors": ["flavio/parameters.py: FlavioParticle, read_pdg"]}
{"id": "C97", "title": "Uncertainties of lifetimes follow from those of widths", "statement": "The upper uncertainty of a lifetime corresponds to the lower uncertainty of the width and vice versa (1/G is decreasing). (Fails: the two sides are exchanged, visible for every asymmetric width.)", "quantifier": "all widths and uncertainties", "why_tests_cant": "all reals", "anchors": ["flavio/parameters.py: FlavioParticle.flavio_tau"]}
{"id": "C98", "title": "The requested number of flavours is honoured", "statement": "rg_evolve_sm with nf_out returns the parameters in the scheme with nf_out flavours, for running up and down.", "quantifier": "all initial and final scales, all nf_out", "why_tests_cant": "all positions of both scales with respect to the thresholds", "anchors": ["flavio/physics/running/running.py: _rg_evolve_sm"]}
{"id": "C99", "title": "Results of running are independent of each other", "statement": "Changing the array a call of rg_evolve_sm returned does not change the results of later calls.", "quantifier": "all histories of calls and of changes of returned arrays", "why_tests_cant": "aliasing only shows in particular histories", "anchors": ["flavio/physics/running/running.py: rg_evolve_sm, _rg_evolve_sm (lru_cache)"]}
{"id": "C100", "title": "The running fine-structure constant is continuous and increasing", "statement": "get_alpha_e returns the input parameter at the Z mass, runs its inverse linearly in the logarithm of the scale with the charges of the active fermions, has no jump at the thresholds, increases with the scale (below the Landau pole), and refuses numbers of flavours other than 3 to 6; the guessed number of flavours is the number of active ones.", "quantifier": "all scales, thresholds in physical order, parameter values", "why_tests_cant": "all reals", "anchors": ["flavio/physics/running/running.py: run_alpha_e, get_nf, get_alpha_e"]}
{"id": "C101", "title": "Transverse decay constants run along the thresholds", "statement": "get_f_perp returns the input value at 2 GeV and otherwise the product of the leading-order factors along the path from 2 GeV with three flavours through the thresholds to the final scale with the smaller of the natural and the requested number of flavours; it always returns a value.", "quantifier": "all scales, requested flavours and strong couplings", "why_tests_cant": "all orderings of the scale with respect to the thresholds", "anchors": ["flavio/physics/running/running.py: get_f_perp, _rg_factor_f_perp"]}
{"id": "C102", "title": "Conjugated parameters give the conjugated CKM matrix", "statement": "For every parametrisation of the CKM matrix, the parameters returned by conjugate_par give the complex conjugate of the matrix. (Fails for the Wolfenstein parametrisation, where nothing changes, and for 'beta gamma', where beta keeps its sign.)", "quantifier": "all parametrisations and parameter values", "why_tests_cant": "all parameter values", "anchors": ["flavio/physics/common.py: conjugate_par", "flavio/physics/ckm.py"]}
{"id": "C103", "title": "Element symbols and atomic numbers correspond", "statement": "symbol and Z are inverse to each other on the atomic numbers 0 to 118 and their symbols, and refuse everything else.", "quantifier": "all integers and texts", "why_tests_cant": "unbounded inputs", "anchors": ["flavio/physics/elements.py: symbol, Z"]}
{"id": "C104", "title": "Unsuccessful attempts are continued", "statement": "As documented, the end point of an unsuccessful attempt that improved the function is the starting point of the next attempt of minimize_robust. (Fails: every attempt starts from the initial point.)", "quantifier": "all objective functions and optimisers", "why_tests_cant": "all behaviours of the optimisers", "anchors": ["flavio/math/optimize.py: minimize_robust"]}
{"id": "C105", "title": "Pulls and differences of chi-squared are inverse to each other", "statement": "For all numbers of degrees of freedom pull and delta_chi2 are inverse to each other on non-negative numbers, the p-value is the complement of the confidence level of the pull, and the special case of one degree of freedom agrees with the general formula.", "quantifier": "all degrees of freedom, all values", "why_tests_cant": "all reals", "anchors": ["flavio/statistics/functions.py: confidence_level, delta_chi2, pull, pvalue"]}
{"id": "C106", "title": "Pulls of negative differences do not depend on special cases", "statement": "The pull of a negative difference of chi-squared is treated alike for all numbers of degrees of freedom. (Fails: its absolute value is used with one degree of freedom, zero otherwise.)", "quantifier": "all negative differences, all degrees of freedom", "why_tests_cant": "all reals", "anchors": ["flavio/statistics/functions.py: pull"]}
{"id": "C107", "title": "Multivariate normal distributions are constructed consistently", "statement": "From a symmetric covariance, the constructor succeeds exactly if it is positive definite, keeps it and derives standard deviations and correlations from it; a strictly upper triangle is reflected; from standard deviations and no, one or a matrix of correlations the covariance is the product; without any of these ValueError is raised; the reported errors are multiples of the standard deviations.", "quantifier": "all dimensions, matrices and vectors", "why_tests_cant": "all dimensions and real matrices", "anchors": ["flavio/statistics/probability.py: MultivariateNormalDistribution.__init__, get_error_left, get_error_right"]}
{"id": "C108", "title": "Missing elements below the diagonal are filled in", "statement": "If the covariance matrix is not symmetric, the upper triangle is reflected at the diagonal, as documented. (Fails if all elements are below 1e-8, the absolute tolerance of numpy.allclose: the matrix is kept without the elements below the diagonal.)", "quantifier": "all upper triangular matrices", "why_tests_cant": "all scales of the entries", "anchors": ["flavio/statistics/probability.py: MultivariateNormalDistribution.__init__"]}
{"id": "C109", "title": "Combining multivariate normals multiplies densities, convolving adds covariances", "statement": "The combination of multivariate normal distributions has, up to a constant factor, the product of their densities as density; the convolution has the sum of the covariances, and the sum or the common central value.", "quantifier": "all dimensions, numbers of distributions, covariances", "why_tests_cant": "all dimensions", "anchors": ["flavio/statistics/probability.py: _combine_multivariate_gaussians, _convolve_multivariate_gaussians, _convolve_distributions_multivariate"]}
{"id": "C110", "title": "Multivariate convolution returns a distribution or raises a documented error", "statement": "convolve_distributions of multivariate distributions with the same central value returns their convolution, and raises NotImplementedError for several numerical ones. (Fails: central values given as arrays raise ValueError; two numerical distributions give None.)", "quantifier": "all multivariate distributions", "why_tests_cant": "all combinations", "anchors": ["flavio/statistics/probability.py: _convolve_multivariate_gaussians, _convolve_distributions_multivariate"]}
{"id": "C111", "title": "delta_logpdf accepts the exclusions that logpdf accepts", "statement": "Whenever logpdf accepts positions to exclude and a point, so does delta_logpdf. (Fails for negative positions, counted from the end.)", "quantifier": "all exclusion tuples", "why_tests_cant": "all positions and dimensions", "anchors": ["flavio/statistics/probability.py: ProbabilityDistribution.delta_logpdf, MultivariateNormalDistribution.logpdf"]}
{"id": "C112", "title": "Mixing amplitudes are linear and chirality symmetric", "statement": "M12 is the Standard Model amplitude plus a term linear in the Wilson coefficients, with the documented sign and matrix elements; exchanging left and right in all coefficients changes nothing; conjugating the CKM matrix and all coefficients conjugates M12 and Gamma12; Gamma12 does not depend on the coefficients.", "quantifier": "all Wilson coefficient dictionaries, parameters, CKM matrices and mesons", "why_tests_cant": "all dictionaries and complex coefficients", "anchors": ["flavio/physics/mesonmixing/amplitude.py: matrixelements, M12, G12_d, G12_u", "flavio/physics/mesonmixing/observables.py: get_M12_G12"]}
{"id": "C113", "title": "Box functions: GIM cancellation and continuity", "statement": "The box function is symmetric, the combination S0 vanishes for degenerate quark masses, the special cases for vanishing and for equal arguments are the limits of the general formula, and for unitary CKM matrices without QCD corrections the two configured treatments of kaon mixing give the same coefficient.", "quantifier": "all real mass ratios different from 1, all unitary CKM matrices", "why_tests_cant": "continuity and identities over the reals", "anchors": ["flavio/physics/mesonmixing/wilsoncoefficient.py: F_box, S0_box, cvll_d"]}
{"id": "C114", "title": "Documented meson mixing conventions hold", "statement": "q/p has the sign for which DeltaM is positive, phi12 is the phase of -M12/Gamma12, and x12Im is the sine of phi12, as the docstrings say. (All three fail.)", "quantifier": "all complex amplitudes", "why_tests_cant": "all complex numbers", "anchors": ["flavio/physics/mesonmixing/common.py: q_over_p", "flavio/physics/mesonmixing/observables.py: phi12, x12Im"]}
{"id": "C115", "title": "A_FB and FLhat are what their names say", "statement": "The forward-backward asymmetry returned for B -> V l l is the asymmetry of the distribution also with scalar operators, and FLhat is a longitudinal fraction. (Both fail: A_FB leaves out the coefficient 6c, and FLhat is -1 for a purely longitudinal decay.)", "quantifier": "all helicity amplitudes", "why_tests_cant": "all complex numbers", "anchors": ["flavio/physics/bdecays/bvll/observables.py: AFB_theory, FLhat"]}
{"id": "C116", "title": "Rate and forward-backward asymmetry are integrals of the angular distribution", "statement": "The differential rate dGamma/dq2 of B -> V l l is the integral of the four-fold differential distribution over the three angles, and without scalar and tensor operators A_FB is the normalised difference of its integrals over the two hemispheres of the lepton.", "quantifier": "all angular coefficients and helicity amplitudes", "why_tests_cant": "integrals over continuous angles", "anchors": ["flavio/physics/bdecays/angular.py: angularcoeffs_general_v", "flavio/physics/bdecays/bvll/observables.py: dGdq2, AFB_theory"]}
{"id": "C117", "title": "Parity, strong phases and phase conventions of angular coefficients", "statement": "Exchanging the chiralities of the quark currents (and the sign of the axial lepton currents) flips the coefficients 7, 8, 9 only; without strong phases the CP asymmetries of the other coefficients and of the rate and the CP averages of 7, 8, 9 vanish; a common factor of the amplitudes enters by its modulus squared, so that quark phase conventions are unobservable.", "quantifier": "all Wilson coefficients, form factors, prefactors and masses", "why_tests_cant": "all complex numbers", "anchors": ["flavio/physics/bdecays/angular.py: helicity_amps_v, angularcoeffs_general_v"]}
{"id": "C118", "title": "Interference coefficients of time-dependent decays", "statement": "The h coefficients describing the interference of decay and mixed decay are those of the coherent sum of the amplitudes minus those of the two separate decays; for equal amplitudes they are 2 cos(phi) times the coefficients, they change sign with the phase, and the interference rate is bounded by the sum of the rates.", "quantifier": "all pairs of helicity amplitudes, all phases", "why_tests_cant": "all complex numbers", "anchors": ["flavio/physics/bdecays/angular.py: angularcoeffs_h_Gbasis_v, angularcoeffs_h_v"]}
{"id": "C119", "title": "Angular distribution of B -> P l l", "statement": "The distribution a + b cos + c cos^2 of B -> P l1 l2 is a sum of squared moduli of helicity amplitudes, hence non-negative; the rate and A_FB are its integrals; normalised and CP-averaged it is 3/4 (1-F_H) sin^2 + F_H/2 + A_FB cos with 0 <= F_H <= 3 (<= 1 without tensors), |A_FB| <= F_H/2, and the CP asymmetry lies in [-1,1].", "quantifier": "all helicity amplitudes, physical q2 and masses, all angles", "why_tests_cant": "all complex numbers and angles", "anchors": ["flavio/physics/bdecays/angular.py: angularcoeffs_general_p", "flavio/physics/bdecays/bpll.py: dGdq2, AFB_num, FH_num"]}
{"id": "C120", "title": "Optimised observables are bounded", "statement": "Without tensor operators P1^2 + 4 beta^2 P2^2 + 4 P3^2 <= 1, P4'^2 + P8'^2 <= 1/2 and, without scalars, beta^2 (P5'^2 + P6'^2) <= 2 for a decay and its conjugate together; for massless leptons J1s = 3 J2s and J1c = -J2c, and the rate is the sum of the squared transversity amplitudes.", "quantifier": "all helicity amplitudes of both decays, all lepton masses", "why_tests_cant": "all complex numbers", "anchors": ["flavio/physics/bdecays/bvll/observables.py: P1, P2, P3, Pp", "flavio/physics/bdecays/angular.py: transversity_to_helicity"]}
{"id": "C121", "title": "Helicity amplitudes are contractions of matrix elements", "statement": "The helicity amplitudes of B -> V l l and B -> P l l are the hadronic matrix elements of the vector, axial, dipole, scalar and tensor currents, written with the traditional form factors, contracted with polarisation vectors in the rest frame of the decaying meson.", "quantifier": "all form factors, Wilson coefficients, masses and q2 in the physical region", "why_tests_cant": "identities over all real form factors and complex coefficients", "anchors": ["flavio/physics/bdecays/angular.py: helicity_amps_v, helicity_amps_p"]}
{"id": "C122", "title": "Only left-handed neutrinos are produced", "statement": "With the effective Wilson coefficients of charged-current and of neutrino neutral-current operators the amplitudes with a neutrino of the wrong helicity vanish: for B -> V l nu for all operators including tensors, for B -> P l nu without tensor operators, and for b -> s nu nu.", "quantifier": "all Wilson coefficients, form factors, lepton masses and q2", "why_tests_cant": "all complex coefficients", "anchors": ["flavio/physics/bdecays/wilsoncoefficients.py: get_wceff_fccc, get_wceff_nunu", "flavio/physics/bdecays/angular.py: helicity_amps_v, helicity_amps_p"]}
{"id": "C123", "title": "Only left-handed neutrinos in B -> P l nu with tensor operators", "statement": "The same for B -> P l nu with a tensor coefficient. (Fails: one of the two tensor amplitudes lacks a factor sqrt(2), so that wrong-helicity neutrinos are produced whenever the tensor coefficient is non-zero.)", "quantifier": "all Wilson coefficients, form factors, lepton masses and q2", "why_tests_cant": "all complex coefficients", "anchors": ["flavio/physics/bdecays/angular.py: helicity_amps_p"]}
{"id": "C124", "title": "Distributions of B -> V l nu in one angle", "statement": "At fixed q2 the published distributions in cos(theta_l), cos(theta_V) and phi are the lifetime times the squared helicity amplitudes, summed over neutrino flavours and integrated over the other angles, times 1/2 for rho0 and omega; they are non-negative; a bin in an angle is the integral of the distribution; the full ranges give the q2 spectrum; longitudinal and transverse parts add up to it and determine the cos(theta_V) distribution.", "quantifier": "all masses, lifetimes, Wilson coefficients, form factors, lepton flavours, q2 and angles", "why_tests_cant": "identities over all real and complex inputs; floating-point tests sample a few points", "anchors": ["flavio/physics/bdecays/bvlnu.py: get_angularcoeff, dG_dq2_dcosthl, dG_dq2_dcosthV, dG_dq2_dphi, dBRdq2_lep"]}
{"id": "C125", "title": "Branching ratios in bins add up to the total", "statement": "For B -> V l nu: adjacent q2 bins add up, whatever their position relative to the kinematic boundaries; bins that cover the kinematic range give the total, which is the lifetime times the rate integrated over q2 and all angles; the spectrum vanishes outside the range; l is the average of e and mu; longitudinal plus transverse is the total; bins in angles add up, are integrals of the differential observables, and the full range gives the total.", "quantifier": "all decays with continuous form factors, all bin boundaries, all lepton flavours and polarisations", "why_tests_cant": "all reals as bin boundaries, including bins that straddle or lie outside the kinematic range", "anchors": ["flavio/physics/bdecays/bvlnu.py: BR_binned, BR_tot, BR_binned_costhl, dBR_dcosthl, kinem_allowed"]}
{"id": "C126", "title": "Fractions and asymmetries of B -> V l nu are bounded", "statement": "Binned branching ratios are non-negative and grow with the bin; normalised bins lie in [0,1]; F_L is the ratio of the longitudinal to the total branching ratio and lies in [0,1]; A_FB is (forward - backward)/(forward + backward) and lies in [-1,1]; the tau-style F_L lies between -2 F_L and F_L.", "quantifier": "all decays with continuous form factors and non-zero total rate, all bins", "why_tests_cant": "all complex Wilson coefficients and real form factors", "anchors": ["flavio/physics/bdecays/bvlnu.py: FL_binned, FL_tot_function, Itot_norm, BR_binned_tot_function"]}
{"id": "C127", "title": "Neutrino flavours and lepton universality", "statement": "Rates with other neutrino flavours never fall below those with the diagonal flavour only; if the lepton-flavour violating coefficients vanish the amplitudes are those of one neutrino; flavours with equal masses and couplings have equal branching ratios and ratio observables equal to 1; ratio observables are quotients of the published branching ratios.", "quantifier": "all Wilson coefficients, all pairs of lepton flavours, all bins", "why_tests_cant": "all complex coefficients", "anchors": ["flavio/physics/bdecays/bvlnu.py: _get_angularcoeff, BR_binned_leptonflavour, BR_tot_leptonflavour"]}
{"id": "C128", "title": "Every registered B -> V l nu observable can be computed", "statement": "The observables registered for the average over light leptons (lep='l') can be computed like those for e, mu and tau. (Fails: F_L, its tau-style variant, A_FB and I_3 averaged over light leptons look up a parameter m_l that does not exist.)", "quantifier": "all decays and parameter values", "why_tests_cant": "the error occurs for every parameter point but the tests only evaluate other flavours", "anchors": ["flavio/physics/bdecays/bvlnu.py: FL_diff, FL_tot_function, Itot_norm, obs_q2int"]}
{"id": "C129", "title": "Branching ratios of B -> P l nu", "statement": "The spectrum is the lifetime times the angular distribution integrated over the lepton angle and summed over neutrinos (times 1/2 for pi0), zero outside the kinematic range, non-negative; adjacent bins add up, covering bins give the total; normalised bins lie in [0,1]; ratios are quotients of the published branching ratios; l is the average of e and mu.", "quantifier": "all decays with continuous form factors, all bins and lepton flavours", "why_tests_cant": "all reals as bin boundaries, all complex coefficients", "anchors": ["flavio/physics/bdecays/bplnu.py: get_angularcoeff, dBRdq2_lep, BR_binned, BR_tot, BR_binned_tot_function"]}
{"id": "C130", "title": "Integration helpers return the integral", "statement": "The helper that integrates rates with a photon pole by subtracting c/q2 and adding its integral back, and the one for complex functions (real and imaginary parts separately), return the integral of the function they are given, for every integrand that has one, whatever the position of the limits; for c/q2 the result is c ln(b/a). (scipy's quadrature is idealised as exact.)", "quantifier": "all integrable real or complex functions, all limits (positive if the lower one is)", "why_tests_cant": "all functions and limits", "anchors": ["flavio/physics/bdecays/bvll/observables.py: nintegrate_pole", "flavio/math/integrate.py: nintegrate_complex"]}
{"id": "C131", "title": "B -> V l l: spectra, bins and angular observables come from one angular distribution", "statement": "dBR/dq2 is the lifetime times the CP-averaged rate integrated over all angles, zero outside the kinematic range and non-negative; bins (averages) times their width add up and equal the integral of the spectrum, also when the bin sticks out of the kinematic range; covering bins give the total. Every registered ratio S_i, A_i, FL, AFB, P_i, P_i', ATIm is, differentially, its published numerator over denominator of the coefficients of the distribution, and, in a bin, the same quotient of the coefficients integrated over the allowed part of the bin; outside the kinematic range it is 0.", "quantifier": "all decays (masses, lifetime, complex amplitudes) with integrable squared amplitudes, all q2, all bins, all registered names", "why_tests_cant": "all amplitudes and bin boundaries", "anchors": ["flavio/physics/bdecays/bvll/observables.py: BVllObservable, BVllObservableBinned, BVllObservableBinnedRatio, BVllObservableBinnedPprime, _observables, _observables_p, _observables_pprime"]}
{"id": "C132", "title": "B -> V l l: bounds of binned observables and lepton-flavour ratios", "statement": "In every bin FL lies in [0,1] without tensor operators (never above 1 at all), |AFB| <= 3/4, P1^2 + 4 b P2^2 + 4 P3^2 <= 1 with b the squared lepton velocity at the lower end of the bin, P4'^2 + P8'^2 <= 1/2, and b(P5'^2 + P6'^2) <= 2 without scalars; R_{l l'} is the quotient of the published branching ratios, non-negative, and 1 if masses and amplitudes of the two leptons agree.", "quantifier": "all decays with integrable squared amplitudes, all bins", "why_tests_cant": "all amplitudes and bins: bounds on integrals of quadratic forms", "anchors": ["flavio/physics/bdecays/bvll/observables.py: BVllObservableBinnedRatio, BVllObservableBinnedPprime, bvll_obs_int_ratio_leptonflavour, bvll_obs_ratio_leptonflavour"]}
{"id": "C133", "title": "ACP(B -> V l l) is the CP asymmetry of the rate", "statement": "The registered observables ACP(B->V l l), differential and binned, are (G - Gbar)/(G + Gbar) with the rates of the decay and its conjugate. (Fails: they are exactly half of it, for every decay.)", "quantifier": "all decays, q2 and bins", "why_tests_cant": "a wrong normalisation that all regression values share", "anchors": ["flavio/physics/bdecays/bvll/observables.py: dGdq2_diff, SA_den, _observables['ACP']"]}
{"id": "C134", "title": "B -> P l l: spectra, bins, AFB, FH, ACP and ratios", "statement": "dBR/dq2 is the lifetime times the CP-averaged rate integrated over the lepton angle (half of it for pi0), zero outside the kinematic range, non-negative; bins add up, covering bins give the total; binned and differential FH and AFB are those that parametrise the angular distribution summed over the decays in the bin, AFB is (forward - backward)/(forward + backward), ACP is (G - Gbar)/(G + Gbar); 0 <= FH <= 3, |AFB| <= FH/2, |ACP| <= 1, and without tensor operators FH <= 1; R_{l l'} is the quotient of the published branching ratios and non-negative.", "quantifier": "all decays (masses, lifetime, complex amplitudes) with integrable squared amplitudes, all q2 and bins", "why_tests_cant": "all amplitudes and bin boundaries", "anchors": ["flavio/physics/bdecays/bpll.py: bpll_obs, bpll_dbrdq2, bpll_dbrdq2_int, bpll_dbrdq2_tot_func, bpll_obs_int_ratio_func, bpll_obs_ratio_func, bpll_obs_int_ratio_leptonflavour, AFB_num, FH_num"]}
{"id": "C135", "title": "B_s -> V l l: published quantities are those of untagged, time-integrated decays", "statement": "For equal numbers of B_s and anti-B_s mesons that oscillate (any mass difference, any width difference smaller than the width, no CP violation in mixing itself) the angular distribution of all decays to the common final state, integrated over time from production on, exists and does not depend on the mass difference; dBR/dq2 is the lifetime times half its rate, zero outside the kinematic range and non-negative, and the published FL, S3, S4, S7 (differential and binned) are the corresponding coefficients of that distribution over its rate; bins add up, equal the integral of the spectrum, and covering bins give the total.", "quantifier": "all decays without tensor amplitudes (masses, lifetime, complex amplitudes with integrable products, mixing phase, width difference), all q2, all bins", "why_tests_cant": "a statement about every pair of amplitudes and an integral over all decay times", "anchors": ["flavio/physics/bdecays/bvll/observables_bs.py: bsvll_obs, S_theory_num_Bs, S_experiment_num_Bs, dGdq2_ave_Bs, SA_den_Bs, FL_Bs, bsvll_obs_int_ratio_func, bsvll_obs_ratio_func, bsvll_dbrdq2, bsvll_dbrdq2_int, bsvll_dbrdq2_19_func", "flavio/physics/bdecays/angular.py: angularcoeffs_h_v"]}
{"id": "C136", "title": "B_s -> V l l: bounds, limit without width difference, lepton ratios", "statement": "FL lies in [0,1] at every q2 and in every bin; without a width difference spectrum, bins, FL, S3, S4, S7 are exactly those of the flavour-specific B -> V l l formulas (CP averages); the ratio of lepton flavours is the quotient of the binned branching ratios and non-negative.", "quantifier": "all decays without tensor amplitudes, all q2 and bins", "why_tests_cant": "all amplitudes, phases and width differences", "anchors": ["flavio/physics/bdecays/bvll/observables_bs.py: FL_num_Bs, bsvll_obs_int_ratio_func, bsvll_obs_int_ratio_leptonflavour"]}
{"id": "C137", "title": "Coefficient dictionaries of a sector are complete", "statement": "get_wc(sector, scale, ...) returns for every known basis and sector a dictionary with one entry per coefficient of that sector: zero for all of them without new physics (nothing set, or all values zero), otherwise the value from the running if it returns one and zero if not, no further coefficients if the running returns only those of the sector; unknown bases and sectors raise KeyError, errors of the running are passed on.", "quantifier": "all bases, sectors (also 'all' and names in use before v0.27), initial values, and results of the running", "why_tests_cant": "all bases and results of the running", "anchors": ["flavio/physics/eft.py: WilsonCoefficients.get_wc, get_wcxf"]}
{"id": "C138", "title": "Old and new names of sectors are interchangeable", "statement": "Every sector name used before v0.27 stands for exactly one WCxf sector - charged currents drop the neutrino flavour, lepton-flavour conserving neutral currents the leptons, flavour-violating ones exchange quarks and leptons - and get_wc and get_wcxf return the same for both; all other names stand for themselves, translating twice changes nothing.", "quantifier": "all strings as sector names, all objects, scales and bases", "why_tests_cant": "all strings", "anchors": ["flavio/physics/eft.py: sectors_flavio2wcxf, WilsonCoefficients.get_wc, get_wcxf"]}
{"id": "C139", "title": "Predictions with one Wilson object do not influence each other", "statement": "Whatever predictions (with whatever CKM parameters, in whatever order) and own calls are made with one wilson.Wilson object, each prediction is the one for the parameters it is made with and the owner's calls return results for the options the owner has set.", "quantifier": "all histories of predictions, own runs and own changes of options", "why_tests_cant": "all histories", "anchors": ["flavio/physics/eft.py: WilsonCoefficients.from_wilson", "flavio/classes.py: Observable.prediction_par, prediction_central, Prediction.get_central"]}
{"id": "C140", "title": "The number of flavours selects the theory", "statement": "nf_out = 5, 4, 3 gives the same coefficients as eft = 'WET', 'WET-4', 'WET-3', and any other number is rejected with ValueError.", "quantifier": "all objects, sectors, bases and integers", "why_tests_cant": "all objects and integers", "anchors": ["flavio/physics/eft.py: WilsonCoefficients.get_wc, get_wcxf"]}
{"id": "C141", "title": "Initial values can be read back in the flavio basis", "statement": "After initial values were accepted, get_initial_wcxf returns them in the flavio basis (as its documentation says); before, it raises ValueError.", "quantifier": "all initial values in all bases", "why_tests_cant": "all bases", "anchors": ["flavio/physics/eft.py: WilsonCoefficients.set_initial, set_initial_wcxf, get_initial_wcxf"]}
{"id": "C142", "title": "B -> l l: rates, time integration, effective lifetime", "statement": "The prompt branching ratio is the lifetime times two-body phase space times the squared matrix element of the vector, axial, scalar and pseudoscalar currents (the SM contributes only to lepton-flavour conserving decays), non-negative; for an oscillating, untagged B_s with any mass difference and any mixing phase the published time-integrated branching ratio is that of all decays from production on, the effective lifetime is the mean decay time, the asymmetry ADeltaGamma lies in [-1,1], the effective lifetime and the time-integrated branching ratio lie between those of the two mass eigenstates, which are reached for pure pseudoscalar and pure scalar amplitudes, and they are connected by the known relation; without width difference both branching ratios agree; lepton-flavour violating channels are zero without new physics, their sum is symmetric.", "quantifier": "all masses below threshold, lifetimes, width differences smaller than the width, complex coefficients, lepton pairs", "why_tests_cant": "all complex coefficients and an integral over all decay times", "anchors": ["flavio/physics/bdecays/bll.py: br_lifetime_corr, amplitudes, S, P, ADeltaGamma, br_inst, br_timeint, bqll_obs, bqll_obs_lsum, bqll_obs_lfv, tau_ll"]}
{"id": "C143", "title": "P -> l nu and tau -> P nu: sum over neutrino flavours of two-body widths", "statement": "Branching ratios and widths of B+, Bc, K+, pi+ (and of D+, Ds without scalar operators) are lifetime times the sum over the three neutrino flavours of phase space times squared matrix element, the SM contributing to one flavour; they are non-negative; with flavour-universal vector couplings ratios of lepton flavours depend only on masses (helicity suppression); the same for tau -> K nu, tau -> pi nu.", "quantifier": "all masses, decay constants, CKM elements, complex coefficients for all lepton and neutrino flavours", "why_tests_cant": "all coefficients and masses", "anchors": ["flavio/physics/bdecays/blnu.py: br_plnu_general, br_blnu, br_bclnu", "flavio/physics/ddecays/dlnu.py", "flavio/physics/kdecays/klnu.py: br_kl2, br_plnu, r_plnu", "flavio/physics/taudecays/taupnu.py: br_taupnu, br_taupnu_general"]}
{"id": "C144", "title": "D -> l nu with scalar operators uses the quark masses of the meson", "statement": "In D+ -> l nu and Ds -> l nu scalar operators contribute with m_D^2/(m_c + m_d) and m_Ds^2/(m_c + m_s).", "quantifier": "all masses and coefficients", "why_tests_cant": "all parameters", "anchors": ["flavio/physics/ddecays/dlnu.py: br_dlnu, br_dslnu"]}
{"id": "C145", "title": "tau -> l nu nu: SM limit and new physics in other flavours", "statement": "Without new physics the branching ratio, summed over neutrino flavours, is the SM one with its electromagnetic correction, only the SM flavours contribute, and the effective Fermi constant is the measured one; without right-handed charged leptons every flavour combination contributes a non-negative amount and new physics in other flavours only adds; a coefficient counts the same whether it is given under the name of the operator or of its hermitian conjugate.", "quantifier": "all masses, lifetimes, couplings, coefficients for all neutrino flavours", "why_tests_cant": "all coefficients and the logarithmic phase-space function for all mass ratios", "anchors": ["flavio/physics/taudecays/taulnunu.py: F, G, _BR, GFeff, _BR_taulnunu, BR_taulnunu, BR_taulnunu_summed"]}
{"id": "C146", "title": "tau -> l nu nu: branching ratios are non-negative", "statement": "The branching ratio of tau -> l nu nu is non-negative for all coefficients.", "quantifier": "all masses and coefficients", "why_tests_cant": "all coefficients", "anchors": ["flavio/physics/taudecays/taulnunu.py: _BR, BR_taulnunu_summed"]}
{"id": "C147", "title": "Decays of a fermion to a fermion and a boson", "statement": "The width of a fermion decaying to a massive vector and a fermion is phase space times the sum over polarisations and parities of squared helicity amplitudes, for all six couplings, hence non-negative; the same for a scalar; for the photon only the two transverse polarisations contribute, so that l -> l' gamma is proportional to |C_12|^2 + |C_21|^2, non-negative, and zero without new physics.", "quantifier": "all masses with an allowed decay, all complex couplings", "why_tests_cant": "all masses and couplings", "anchors": ["flavio/physics/taudecays/common.py: GammaFsf, GammaFvf", "flavio/physics/taudecays/taulgamma.py: BR_llgamma", "flavio/physics/mudecays"]}
{"id": "C148", "title": "Expansion variable z", "statement": "For positive masses and q2 up to the pair-production threshold the conformal variable z is defined, lies in [-1, 1), is zero at t0 and strictly decreasing in q2; above the threshold a ValueError is raised. With the default t0 the physical region 0 <= q2 <= t_- is mapped to an interval symmetric around zero. With t0 = t_- the recoil w is an exact rational function of z and the polynomials used for (w-1)^n are its Taylor polynomials to the requested order; orders above 3 are refused.", "quantifier": "all positive masses, all q2, all choices of t0, all orders", "why_tests_cant": "all masses and momentum transfers", "anchors": ["flavio/physics/bdecays/formfactors/common.py: z, w_minus_1_pow_n"]}
{"id": "C149", "title": "f+(0) = f0(0)", "statement": "At zero momentum transfer the vector and scalar form factors of a pseudoscalar-to-pseudoscalar transition coincide, for every registered implementation (B -> K, pi, D; D -> K, pi; K -> pi; BSZ, BCL with Isgur-Wise tensor, BCL with t0 = 0, BCL-LMVD, CLN, dispersive) other than the plain BCL ones, for all parameter values.", "quantifier": "all implementations other than plain BCL, all parameter dictionaries", "why_tests_cant": "all parameter values", "anchors": ["flavio/physics/bdecays/formfactors/b_p/bsz.py: ff", "flavio/physics/bdecays/formfactors/b_p/bcl.py: ff, ff_isgurwise", "flavio/physics/bdecays/formfactors/b_p/bcl_lmvd.py: ff", "flavio/physics/bdecays/formfactors/b_p/cln.py: ff, h_to_f", "flavio/physics/ddecays/formfactors/bsz.py: ff", "flavio/physics/kdecays/formfactors.py: fp0_dispersive, fT_pole"]}
{"id": "C150", "title": "f+(0) = f0(0) for the plain BCL parametrisation", "statement": "The plain BCL implementations (B -> P BCL3 and BCL4, D -> P BCL2) choose the last coefficient of f0 such that f+(0) = f0(0).", "quantifier": "all parameter dictionaries", "why_tests_cant": "all parameter values", "anchors": ["flavio/physics/bdecays/formfactors/b_p/bcl.py: ff", "flavio/physics/ddecays/formfactors/bcl.py: ff"]}
{"id": "C151", "title": "BCL parametrisations: behaviour at the threshold", "statement": "In every BCL implementation the vector and tensor form factors, without the resonance pole, differ from their value at the threshold t_+ by at most a constant times t_+ - q2: the square-root term that angular momentum conservation forbids is absent, for all coefficients and all numbers of coefficients used.", "quantifier": "all BCL implementations and transitions, all parameter dictionaries with positive masses, all q2 up to the threshold", "why_tests_cant": "all coefficients and q2", "anchors": ["flavio/physics/bdecays/formfactors/b_p/bcl.py: param_fplusT, ff, ff_isgurwise", "flavio/physics/bdecays/formfactors/b_p/bcl_lmvd.py: param_fplusT, ff", "flavio/physics/ddecays/formfactors/bcl.py: ff"]}
{"id": "C152", "title": "B -> V form factors at zero momentum transfer", "statement": "At zero momentum transfer A0 (mB^2 - mV^2) = 8 mB mV A12 for BSZ2, BSZ3, CLN and CLNexp-IW, and T1 = T2 for BSZ2, BSZ3 and CLN, for all parameter values.", "quantifier": "all transitions and implementations other than SSE, all parameter dictionaries", "why_tests_cant": "all parameter values", "anchors": ["flavio/physics/bdecays/formfactors/b_v/bsz.py: ff", "flavio/physics/bdecays/formfactors/b_v/cln.py: h_to_A, ff", "flavio/physics/bdecays/formfactors/b_v/clnexp.py: ff"]}
{"id": "C153", "title": "CLNexp-IW tensor form factors at zero momentum transfer", "statement": "For 'B->D* CLNexp-IW' T1(0) = T2(0), and T23 at q2 = 0 is the limit of T23 at small q2, for all power corrections.", "quantifier": "all parameter dictionaries", "why_tests_cant": "all parameter values", "anchors": ["flavio/physics/bdecays/formfactors/b_v/isgurwise.py: isgur_wise", "flavio/physics/bdecays/formfactors/b_v/clnexp.py: ff"]}
{"id": "C154", "title": "Form factors leave the parameter dictionary alone", "statement": "Evaluating a form factor does not change the dictionary of parameters passed by the caller.", "quantifier": "all parameter dictionaries and q2", "why_tests_cant": "all states of the dictionary and repeated calls", "anchors": ["flavio/physics/bdecays/formfactors/b_v/bsz.py: ff", "flavio/physics/bdecays/formfactors/lambdab_12/sse.py: ff"]}
{"id": "C155", "title": "Lambda_b -> Lambda form factors at maximal momentum transfer", "statement": "At q2 = (m_Lambdab - m_Lambda)^2 the axial form factors fAperp and fA0 coincide, as do fT5perp and fT50, for all parameter values.", "quantifier": "all implementations and parameter dictionaries", "why_tests_cant": "all parameter values", "anchors": ["flavio/physics/bdecays/formfactors/lambdab_12/sse.py: ff", "flavio/physics/bdecays/formfactors/lambdab_12/lambdab.py"]}
{"id": "C156", "title": "Lambdab->Lambda SSE3 uses three coefficients", "statement": "The implementation 'Lambdab->Lambda SSE3' (the default) uses three coefficients per form factor.", "quantifier": "all parameter dictionaries, all q2", "why_tests_cant": "all parameter values", "anchors": ["flavio/physics/bdecays/formfactors/lambdab_12/lambdab.py"]}
{"id": "C157", "title": "Registered form-factor implementations can be evaluated", "statement": "Every form-factor implementation registered for a transition can be evaluated for some parameters.", "quantifier": "all registered implementations, all parameter dictionaries and q2", "why_tests_cant": "all parameter values", "anchors": ["flavio/physics/bdecays/formfactors/b_p/btop.py", "flavio/physics/bdecays/formfactors/b_p/bcl_lmvd.py: process_dict", "flavio/physics/bdecays/formfactors/b_v/btov.py", "flavio/physics/bdecays/formfactors/b_v/sse.py: process_dict"]}
{"id": "C158", "title": "CLN form factors at zero recoil", "statement": "At maximal momentum transfer the CLN form factors A1 (B -> D*) and f0 (B -> D), in the heavy-quark normalisation, are one up to radiative corrections and corrections of second order in 1/m_c: slope, curvature and all first-order subleading parameters drop out.", "quantifier": "all parameter dictionaries with positive masses, all values of the HQET functions", "why_tests_cant": "all parameter values", "anchors": ["flavio/physics/bdecays/formfactors/b_v/cln.py: ff, h_to_A", "flavio/physics/bdecays/formfactors/b_p/cln.py: ff, h_to_f", "flavio/physics/bdecays/formfactors/hqet.py: xi, Lz, ell"]}
{"id": "C159", "title": "Electroweak observables do not depend on operator combinations removable by field redefinitions", "statement": "Adding to any set of Warsaw-basis coefficients, in any amount, one of the two combinations of operators that the equations of motion of the B and W fields turn into operators without fermion currents (hypercharge currents, or flavour-universal left-handed triplet currents, with the matching phiD and phiWB) leaves unchanged the prediction of m_W, of all flavour-changing and neutrino Z widths, of flavour-conserving Z widths and asymmetries of fermions whose effective mixing angle is the tree-level one, and of the W widths (hypercharge combination: all; triplet combination: those without change of generation).", "quantifier": "all coefficients, all amounts, all parameters fulfilling the tree-level relation, all fermions", "why_tests_cant": "all coefficient values and parameters", "anchors": ["flavio/physics/zdecays/smeftew.py: d_gV, d_gA, d_gW, d_gZb, d_sh2", "flavio/physics/zdecays/gammaz.py: GammaZ", "flavio/physics/zdecays/afbz.py", "flavio/physics/wdecays/gammaw.py: GammaW", "flavio/physics/wdecays/mw.py"]}
{"id": "C160", "title": "Z widths, ratios and asymmetries are consistent", "statement": "The Z width to a fermion pair is the SM width plus the change of the squared couplings whose ratio determines the asymmetry; for new physics in fermion currents the couplings shift by the coefficients of the left- and right-handed currents of that fermion; asymmetries lie in [-1,1], forward-backward asymmetries in [-3/4,3/4]; flavour-changing widths are non-negative, symmetric in the two fermions and vanish without flavour-changing coefficients; the total width is the sum of hadronic, leptonic and invisible widths; ratios R_q, R_l and the hadronic peak cross section are the corresponding ratios; without new physics e and mu, d and s, and the three neutrinos agree.", "quantifier": "all coefficients, parameters and fermions", "why_tests_cant": "all coefficient values and parameters", "anchors": ["flavio/physics/zdecays/gammaz.py", "flavio/physics/zdecays/gammazsm.py", "flavio/physics/zdecays/afbz.py", "flavio/physics/zdecays/smeftew.py"]}
{"id": "C161", "title": "W widths and branching ratios are consistent", "statement": "Without new physics and with normalised CKM rows the leptonic and hadronic W widths are the SM ones, lepton-flavour ratios are 1 and R_cX is 1/2; leptonic branching ratios and the hadronic fraction add up to 1 with any new physics; for real CKM elements the change of a partial width is that of the squared coupling.", "quantifier": "all coefficients, parameters and final states", "why_tests_cant": "all coefficient values and parameters", "anchors": ["flavio/physics/wdecays/gammaw.py"]}
{"id": "C162", "title": "Flavour-universal new physics does not give lepton-flavour violating W decays", "statement": "If the only new physics is the flavour-universal coefficient phiWB, the width of W -> e nu_mu vanishes.", "quantifier": "all values of the coefficient and parameters", "why_tests_cant": "all coefficient values and parameters", "anchors": ["flavio/physics/zdecays/smeftew.py: d_gWl, d_gWq", "flavio/physics/wdecays/gammaw.py: GammaW"]}
{"id": "C163", "title": "W widths do not depend on quark phase conventions", "statement": "Multiplying V_ub and the coefficient of the corresponding W u b coupling by the same phase leaves the width of W -> u b unchanged.", "quantifier": "all coefficients, CKM matrices and phases", "why_tests_cant": "all coefficient values and parameters", "anchors": ["flavio/physics/wdecays/gammaw.py: GammaW_NP"]}
{"id": "C164", "title": "Higgs signal strengths", "statement": "All Higgs production cross sections, partial widths and signal strengths are 1 without new physics; production and decay modes depend linearly on the real parts of the coefficients (effects of different coefficients add up); VH and VV lie between their W and Z versions; gluon fusion and h->gg agree up to phiG, fermionic modes up to their own Yukawa coefficient; the total width changes by the sum of SM branching ratios times changes of partial widths plus a non-negative term that vanishes iff the light-quark Yukawa coefficients vanish; a signal strength is production times decay over width and each of the observables has its own name.", "quantifier": "all coefficients, GF > 0, production and decay modes", "why_tests_cant": "all coefficient values", "anchors": ["flavio/physics/higgs/decay.py", "flavio/physics/higgs/production.py", "flavio/physics/higgs/width.py: Gamma_h", "flavio/physics/higgs/signalstrength.py"]}
{"id": "C165", "title": "Higgs signal strengths are non-negative", "statement": "Every Higgs signal strength is non-negative.", "quantifier": "all coefficients, GF > 0, production and decay modes", "why_tests_cant": "all coefficient values", "anchors": ["flavio/physics/higgs/production.py", "flavio/physics/higgs/signalstrength.py: higgs_signalstrength"]}
{"id": "C166", "title": "ee -> WW cross-section ratio", "statement": "The ratio of the e+e- -> W+W- cross section to the SM one is defined exactly for the ten tabulated energies (ValueError otherwise), is 1 without new physics, linear in the real parts of the coefficients and depends only on eight of them.", "quantifier": "all energies and coefficients", "why_tests_cant": "all coefficient values", "anchors": ["flavio/physics/scattering/ee_ww.py: ee_WW"]}
{"id": "C167", "title": "Differential ee -> WW cross section is normalised to the SM", "statement": "The differential cross-section ratio, documented as normalised to the SM, is 1 in every bin without new physics.", "quantifier": "all bins and energies (modelled: the outermost bins of the first energy)", "why_tests_cant": "all bins", "anchors": ["flavio/physics/scattering/ee_ww.py: ee_WW_diff"]}
{"id": "C168", "title": "Neutrino tridents and anomalous magnetic moments", "statement": "The trident cross section relative to the SM is 1 without new physics, non-negative, increased by couplings to other neutrino flavours, and the ratio of squared left- and right-handed couplings to those of tree-level W and Z exchange; the anomalous magnetic moment of a lepton is the SM value plus a shift proportional to m^2 and to the real part of the dipole coefficient, positive iff that is positive.", "quantifier": "all coefficients and parameters", "why_tests_cant": "all coefficient values", "anchors": ["flavio/physics/neutrinos/trident.py: R_trident", "flavio/physics/mdms/al.py"]}
{"id": "C169", "title": "Lepton-flavour violating decays to three leptons", "statement": "BR(tau -> l1 l2 l3) can be computed exactly for the six decays and raises otherwise; it vanishes without new physics, is quadratic in the coefficients, equal for CP-conjugate and parity-mirrored coefficients, and non-negative exactly if the logarithms of the mass ratios exceed 17/4 (identical leptons) or 4; with dipole coefficients only it has the fixed ratio alpha/(3 pi)(log - 11/4 or 3) to the radiative decay; the same for mu -> 3e, which is the tau formula with the muon mass and rate.", "quantifier": "all coefficients, masses and final states", "why_tests_cant": "all coefficient values and all final states", "anchors": ["flavio/physics/taudecays/tau3l.py: wc_eff, BR_taul1l2l3", "flavio/physics/mudecays/mu3e.py", "flavio/physics/taudecays/taulgamma.py"]}
{"id": "C170", "title": "Muon to electron conversion in nuclei", "statement": "CR(mu-e) is m_mu^5/capture rate times the sum of the squared amplitudes for left- and right-handed electrons; independent of GF, non-negative, zero without new physics, quadratic, invariant under CP conjugation and parity, and under the simultaneous exchange of u and d quarks and of the overlap integrals of protons and neutrons.", "quantifier": "all coefficients, nuclei and charges", "why_tests_cant": "all coefficient values", "anchors": ["flavio/physics/mudecays/mueconversion.py: CR_mue", "flavio/physics/edms/common.py: proton_charges"]}
{"id": "C171", "title": "Lepton-flavour violating tau decays to a meson", "statement": "tau -> rho l, phi l is the two-body rate with the couplings of the quark content of the meson (dipole via quark charges); tau -> pi0 l with the axial and pseudoscalar couplings of u minus d; tau -> K0 l with primed minus unprimed coefficients. Rates are non-negative, quadratic, invariant under parity; rho depends on u - d only, pi0 vanishes for isospin-symmetric and K0 for parity-even coefficients; l = tau raises KeyError.", "quantifier": "all coefficients, mesons, leptons and masses above threshold", "why_tests_cant": "all coefficient values", "anchors": ["flavio/physics/taudecays/tauvl.py: br_tauvl", "flavio/physics/taudecays/taupl.py: br_taupl"]}
{"id": "C172", "title": "Dipole moments of quarks are proportional to their own mass", "statement": "The (chromo-)electric dipole moment of fermion f is 4GF/sqrt2 e/(8 pi^2) m_f Im C7_ff (C8 without e) with the mass of f, as documented.", "quantifier": "all fermions and parameters", "why_tests_cant": "all fermions, parameters and coefficients", "anchors": ["flavio/physics/edms/common.py: get_m, edm_f, cedm_f"]}
{"id": "C173", "title": "Electric dipole moments violate CP", "statement": "Dipole moments of fermions and of paramagnetic systems are additive in the coefficients, change sign under CP, and vanish for real coefficients; that of the neutron is non-negative and homogeneous; the electron-nucleus coupling is the average of proton and neutron couplings with the charges of mu-e conversion; unknown fermion, EFT and system raise ValueError, KeyError, KeyError.", "quantifier": "all coefficients, fermions, systems and parameters", "why_tests_cant": "all coefficient values", "anchors": ["flavio/physics/edms/common.py", "flavio/physics/edms/neutronedm.py: nedm", "flavio/physics/edms/slcouplings.py: CS", "flavio/physics/edms/paraedm.py"]}
{"id": "C174", "title": "Paramagnetic systems use the proton and neutron numbers of their heavy nucleus", "statement": "The electron-nucleus contribution to d_Tl, omega_YbF, omega_HfF and omega_ThO is that of the heavy nucleus of the system.", "quantifier": "all parameters and coefficients", "why_tests_cant": "all parameters and coefficients", "anchors": ["flavio/physics/edms/paraedm.py: atoms, molecules"]}
{"id": "C175", "title": "Total Wilson coefficients of flavour-changing neutral currents", "statement": "wctot_dict adds to every new-physics coefficient the Standard Model contribution of that name and sector, linearly interpolated in the scale: C10 with the dependence on the top mass, C7 and C8 such that the effective coefficients C7eff and C8eff without new physics are the tabulated ones, C7' and C8' with m_s/m_b for b -> s only, none for other names; the effective coefficients are completed consistently. nf_out other than 5, a scale outside [2, 5.5] GeV and an unknown sector raise NotImplementedError, ValueError and KeyError, in this order, after errors of get_wc.", "quantifier": "all new-physics coefficients, tables, scales, masses and the nine sectors", "why_tests_cant": "all coefficient values and scales; nine sectors times 34 names", "anchors": ["flavio/physics/bdecays/wilsoncoefficients.py: wcsm_nf5, fcnclabels, wctot_dict, get_C78eff", "flavio/physics/common.py: add_dict"]}
{"id": "C176", "title": "Effective Wilson coefficients for B -> M l l", "statement": "get_wceff is defined for all q2 > 0 and raises ValueError at q2 = 0; it is linear in the coefficients; effective coefficients of different leptons differ exactly by their C9, C10, CS, CP (with m_b) coefficients: quark loops are lepton-universal; loop corrections have the documented structure in C1...C6, C8eff and xi_u/xi_t.", "quantifier": "all coefficients, leptons, q2, scales, masses and values of the tabulated functions", "why_tests_cant": "all complex coefficients", "anchors": ["flavio/physics/bdecays/wilsoncoefficients.py: get_wceff", "flavio/physics/bdecays/matrixelements.py: Y, Yu, delta_C7, delta_C9, F_89, SeidelC, Fu_17, Fu_27, Fu_19, Fu_29"]}
{"id": "C177", "title": "One-loop matrix elements of four-quark operators", "statement": "Y depends on the scale through 8/9 log(mu'/mu) times one fixed combination of C1...C6 at all q2; Yu does not depend on the scale and vanishes for a massless charm quark; for real coefficients and below the b threshold the imaginary part of Y is that of massless quarks plus a fraction between 0 and 1 of a massless charm quark, 0 below the charm threshold.", "quantifier": "all q2 > 0, scales, masses and coefficients", "why_tests_cant": "continuous range of q2 with thresholds", "anchors": ["flavio/physics/bdecays/matrixelements.py: h, Y, Yu"]}
{"id": "C178", "title": "Decays B -> M nu nu: rates, polarisation and bins", "statement": "For all kinematics in the phase space the rate of B -> V nu nu is the sum over pairs of neutrino flavours of the non-negative rates of the longitudinal, parallel and perpendicular polarisations, that of B -> P nu nu of the f+ rate; half of it for pi0 and rho0; FL is the longitudinal fraction, between 0 and 1 and 0 where the rate vanishes; at and beyond the endpoint everything is 0. Binned values are averages of the rates, additive over adjacent bins; BRtot is the bin of all q2; binned FL is the ratio of the integrals.", "quantifier": "all parameters, form factors, Wilson coefficients, q2 and bins", "why_tests_cant": "continuous range of q2, form factors and coefficients; special cases at endpoints", "anchors": ["flavio/physics/bdecays/bvnunu.py", "flavio/physics/bdecays/bpnunu.py", "flavio/physics/bdecays/angular.py"]}
{"id": "C179", "title": "New physics in B -> M nu nu", "statement": "Left-handed lepton-flavour dependent new physics multiplies all rates by one q2-independent factor and leaves FL unchanged; B -> P nu nu depends only on the sum of left- and right-handed coefficients of each pair of flavours; flavour-violating coefficients can only increase the rates.", "quantifier": "all coefficients, decays and q2", "why_tests_cant": "all 18 complex coefficients", "anchors": ["flavio/physics/bdecays/bvnunu.py: prefactor, get_ff, bvnunu_obs_summed", "flavio/physics/bdecays/bpnunu.py", "flavio/physics/bdecays/wilsoncoefficients.py: CL_SM"]}
{"id": "C180", "title": "Decays K -> pi nu nu", "statement": "BR(K+ -> pi nu nu) is a non-negative factor times the sum over pairs of flavours of |A_ij|^2, BR(KL -> pi0 nu nu) the same with (Im A_ij)^2: the Grossman-Nir bound holds whatever the new physics, KL does not decay if CP is conserved, only sums of left- and right-handed coefficients enter, and flavour-violating coefficients add without interference.", "quantifier": "all parameters and coefficients", "why_tests_cant": "all coefficient values", "anchors": ["flavio/physics/kdecays/kpinunu.py", "flavio/physics/bdecays/wilsoncoefficients.py: get_wceff_nunu"]}
{"id": "C181", "title": "The K -> pi nu nu prediction does not depend on the scale of the electromagnetic coupling", "statement": "Without new physics the branching ratios depend only on alpha_e(MZ), not on the value of alpha_e at the low scale used in intermediate steps.", "quantifier": "all parameters", "why_tests_cant": "all parameter values", "anchors": ["flavio/physics/kdecays/kpinunu.py: prefactor, amplitude", "flavio/physics/bdecays/wilsoncoefficients.py: CL_SM"]}
{"id": "C182", "title": "Lepton-flavour violating B decays B -> M l l'", "statement": "Within the phase space the rates of B -> P l l' and B -> V l l' are the sums of the squared vector, axial, scalar and pseudoscalar amplitudes with non-negative kinematic factors, zero outside; totals are the integrals over the phase space, non-negative, and 0 for negligible coefficients; the rate for both charges is the sum and symmetric; B -> P depends on sums of primed and unprimed coefficients; rates are quadratic in the coefficients and unchanged under exchange of the leptons with a change of sign of the scalar coefficients.", "quantifier": "all coefficients, form factors, masses, pairs of leptons and q2", "why_tests_cant": "continuous range of q2, form factors and coefficients", "anchors": ["flavio/physics/bdecays/bpll_lfv.py", "flavio/physics/bdecays/bvll/lfv.py", "flavio/physics/bdecays/wilsoncoefficients.py: get_wceff_lfv"]}
{"id": "C183", "title": "Isospin of lepton-flavour violating decays to rho0", "statement": "The rate of B0 -> rho0 l l' contains the factor 1/2 of the quark content of the rho0, as in all other decays to rho0 and pi0.", "quantifier": "all coefficients, form factors, masses, pairs of leptons", "why_tests_cant": "all parameter values", "anchors": ["flavio/physics/bdecays/bvll/lfv.py: bvll_lfv_obs_int_..., BR_tot"]}
{"id": "C184", "title": "Observables of B -> V gamma", "statement": "From the four amplitudes of the decay and its CP conjugate: the branching ratio is the lifetime times the CP-averaged width, non-negative; ACP is in [-1, 1]; S and ADeltaGamma are imaginary and real part of one interference term, so that S^2 + ADeltaGamma^2 <= |q/p|^2 (1 - ACP^2); they vanish without right-handed photons, ACP without CP violation; the time-integrated branching ratio is BR (1 - ADG y)/(1 - y^2), within factors 1/(1+-|y|) of BR.", "quantifier": "all amplitudes, lifetimes, q/p and width differences", "why_tests_cant": "all complex amplitudes", "anchors": ["flavio/physics/bdecays/bvgamma.py"]}
{"id": "C185", "title": "Loop functions h and F_87 with special cases", "statement": "h(s, mq, mu) is defined for all s >= 0, mq >= 0 except s = mq = 0 (ValueError); real below the threshold s = 4 mq^2, with an imaginary part that grows from 0 to at most 4 pi/9 above; changes by 8/9 log of the ratio when the scale changes and depends on ratios only; it is continuous for s > 0 across the threshold, and the special cases s = 0 and mq = 0 are the limits, with explicit error bounds. F_87 at q2 = 0 is the limit of its values, with constant imaginary part.", "quantifier": "all q2, quark masses and scales", "why_tests_cant": "continuous range; limits at special cases and threshold", "anchors": ["flavio/physics/bdecays/matrixelements.py: h, F_87", "flavio/math/functions.py"]}
{"id": "C186", "title": "Conventions and electroweak correction of charged-current coefficients", "statement": "The coefficients of get_wceff_fccc and get_wceff_fccc_std describe the same operators: v - a, vp - ap, s - p, sp - pp, tp are VL, VR, SR, SL, T, and v + a etc. vanish. The electroweak correction is a constant sqrt(1.0232) for K and pi decays, and otherwise 1 at m_Z and grows with log(1/scale) times alpha_e/pi.", "quantifier": "all coefficients, scales and flavour numbers", "why_tests_cant": "all coefficient values and scales", "anchors": ["flavio/physics/bdecays/wilsoncoefficients.py: get_CVLSM, get_wceff_fccc, get_wceff_fccc_std"]}
{"id": "C187", "title": "Leptonic decays of vector quarkonia", "statement": "The branching ratio is not negative for any coefficients; both charge combinations of two different leptons have the same branching ratio, and combined observables are twice it; without new physics it is 4 pi/3 (alpha Q f)^2 tau/m times sqrt(1-4y^2)(1+2y^2) with y = m_l/m, so heavier leptons are produced less often and the couplings are universal; the branching ratio is proportional to the lifetime and ratios do not depend on it.", "quantifier": "all complex Wilson coefficients, masses with an open decay, decay constants, lifetimes and lepton pairs", "why_tests_cant": "continuous coefficients and masses; tests compare a few values of one paper", "anchors": ["flavio/physics/quarkonium/Vll.py: getVT_lfv, getVT_lfc, Vll_br, Vll_br_comb_func, Vll_ratio_func"]}
{"id": "C188", "title": "Leptonic decays of scalar and pseudoscalar quarkonia", "statement": "The branching ratios are not negative for any coefficients and gluonic operators; the two charge combinations of a scalar meson agree if the real coefficients of the gluonic operators are exchanged with the leptons.", "quantifier": "all complex coefficients, masses with an open decay, decay constants", "why_tests_cant": "continuous coefficients and masses", "anchors": ["flavio/physics/quarkonium/Pll.py: getS_lfv, Pll_br", "flavio/physics/quarkonium/Sll.py: getS_lfv, Sll_br"]}
{"id": "C189", "title": "Charge symmetry of pseudoscalar quarkonium decays", "statement": "The two charge combinations of a pseudoscalar meson have the same branching ratio (as those of the scalar and vector mesons, in the absence of gluonic operators).", "quantifier": "all complex coefficients and masses", "why_tests_cant": "continuous coefficients; only combinations of scalar and vector coefficients show the difference", "anchors": ["flavio/physics/quarkonium/Pll.py: getS_lfv, Pll_br"]}
{"id": "C190", "title": "Current conservation in pseudoscalar quarkonium decays", "statement": "The divergence of the vector current of two leptons with equal masses vanishes, so that it does not contribute to the decay of a pseudoscalar, and that of the axial-vector current does not vanish.", "quantifier": "all vector coefficients and equal lepton masses", "why_tests_cant": "a relation between all coefficient values at a boundary of the mass range", "anchors": ["flavio/physics/quarkonium/Pll.py: getS_lfv, Pll_br"]}
{"id": "C191", "title": "Radiative lepton-flavour violating decays of vector quarkonia", "statement": "The kinematic functions (except Fhat_P, C192) vanish when the lepton is as heavy as the meson; those that multiply absolute squares are not negative between 0 and 1; all are continuous at zero lepton mass with the special values of the code there; both charge combinations have the same branching ratio if the photon couplings are exchanged with the leptons; for equal masses there is no result but an UnboundLocalError.", "quantifier": "all mass ratios between 0 and 1, all coefficients and lepton pairs", "why_tests_cant": "continuous mass ratio with a limit at 0", "anchors": ["flavio/physics/quarkonium/Vllgamma.py: F_A, F_S, Ftilde_S, Fhat_S, F_PA, Ftilde_PA, getWC_lfv, Vllgamma_br"]}
{"id": "C192", "title": "Positivity of radiative quarkonium decays", "statement": "The branching ratio of V -> l l' gamma is not negative and vanishes at threshold.", "quantifier": "all coefficients and masses with an open decay", "why_tests_cant": "needs the worst case over all coefficients", "anchors": ["flavio/physics/quarkonium/Vllgamma.py: Fhat_P, Vllgamma_br"]}
{"id": "C193", "title": "Neutron decay: positive distribution", "statement": "For all effective couplings, electron energies, polarisations and directions, the coefficients a, b, A, B, D together describe a decay distribution 1 + b m + a beta e.v + n.(A beta e + B v + D beta e x v) that is not negative; |a|, |b|, |A| <= 1 and |B| <= 1 + b m (|Btilde| <= 1).", "quantifier": "all complex couplings V, A, S, T, not all 0, all m_e/E between 0 and 1, all unit vectors", "why_tests_cant": "a joint constraint on five functions over continuous couplings and directions", "anchors": ["flavio/physics/betadecays/ft.py: xi, a_xi, b_xi, A_xi, B_xi, D_xi, NeutronObservable, Neutron_corr"]}
{"id": "C194", "title": "Correlation coefficients of beta decays: bounds and symmetries", "statement": "For all transitions |a| <= 1 and |b| <= sqrt(1 - (alpha Z)^2); a common complex factor of all couplings has no effect; complex conjugation of the couplings changes the sign of D and R only, which vanish for real couplings; positron emission with CP-conjugate couplings has the same a, b, D and opposite A, B, R; forbidden changes of the spin raise ValueError, and pure Fermi transitions have no correlations with the spin.", "quantifier": "all complex couplings, nuclear matrix elements, spins, charges and the sign of the lepton", "why_tests_cant": "continuous couplings and matrix elements, all spins", "anchors": ["flavio/physics/betadecays/ft.py: xi, a, b, A, B, D, R, la, dl"]}
{"id": "C195", "title": "Neutron decay: V - A limit", "statement": "With real V and A couplings, lambda = A/V, a = (1-l^2)/(1+3l^2), A = -2(l^2+l)/(1+3l^2), B = 2(l^2-l)/(1+3l^2), b = D = R = 0, lambdaAB = lambda, and tilde observables equal those without; in the Standard Model lambda = -g_A/g_V and the universal correction drops out of the couplings; left-handed new physics only rescales them; the pseudoscalar combination of Wilson coefficients has no effect.", "quantifier": "all couplings, charges, corrections and coefficients", "why_tests_cant": "continuous parameters", "anchors": ["flavio/physics/betadecays/ft.py: Neutron_corr", "flavio/physics/betadecays/common.py: wc_eff"]}
{"id": "C196", "title": "Ft values and the neutron lifetime", "statement": "Ft of every superallowed decay is K/(4(|V|^2+|S|^2)) over (1 + b <m/E>) G_F^2 |V_ud|^2/2; it is positive for all couplings; without scalar coupling and nuisance parameters it is the same for all nuclei; and tau_n ln2 f_n (1+R) (1+3 lambda^2) = 2 Ft, independent of V_ud and G_F.", "quantifier": "all couplings, parameters and the 14 nuclei", "why_tests_cant": "continuous couplings; a relation between observables", "anchors": ["flavio/physics/betadecays/ft.py: Ft_superallowed, Neutron_tau, K, nuclei_superallowed"]}
{"id": "C197", "title": "Elements and isotopes", "statement": "symbol and Z of the table of elements are inverse to each other and defined for 0 to 118; the charge of each nucleus of the table is that of its element, and get_daughter returns the isotope with the same mass number and one proton less.", "quantifier": "all symbols and numbers, all nuclei of the table", "why_tests_cant": "an exhaustive property of tables", "anchors": ["flavio/physics/elements.py: symbol, Z", "flavio/physics/betadecays/ft.py: get_daughter, nuclei_superallowed"]}
{"id": "C198", "title": "K0 -> l l", "statement": "The branching ratios of K_L -> l l' and K_S -> l l are not negative for all Wilson coefficients; only the differences of coefficients and their primed partners enter; in the Standard Model the top and charm coefficients enter as xi_t C_t + xi_c C_c, its real part (with the dispersive amplitude) for K_L and its imaginary part for K_S, times m_l^2 sqrt(1 - 4 m_l^2/m_K^2); and the two orders of lepton flavours add.", "quantifier": "all masses with an open decay, coefficients, CKM elements and couplings", "why_tests_cant": "continuous parameters", "anchors": ["flavio/physics/kdecays/kll.py: amplitudes, amplitudes_LD, amplitudes_eff, get_wc, br_kll, br_kll_fct_lsum"]}
{"id": "C199", "title": "BR(KS->emu,mue) has a value", "statement": "The registered observable BR(KS->emu,mue) has a value for all parameters and Wilson coefficients.", "quantifier": "all parameters and coefficients", "why_tests_cant": "a path no test takes", "anchors": ["flavio/physics/kdecays/kll.py: amplitudes_eff, br_kll_fct_lsum"]}
{"id": "C200", "title": "K -> pi l nu", "statement": "The spectrum of K -> pi l nu is zero outside of phase space and not negative; inside it is the sum over neutrino flavours of squared helicity amplitudes integrated over the angle, times lifetime, 1/2 for pi0, (1 + delta)^2 of the isospin breaking form factors (K+) or (1 + delta_EM)^2 of the named parameter (K0); the branching ratio is its integral over phase space.", "quantifier": "all q2, masses, form factors, complex coefficients and corrections", "why_tests_cant": "continuous inputs and an integral", "anchors": ["flavio/physics/kdecays/kpilnu.py: get_ff, get_angularcoeff, _get_angularcoeff, dGdq2, dBRdq2, BR_binned, BR_tot"]}
{"id": "C201", "title": "Electromagnetic corrections of K+ decays are applied", "statement": "BR(K+->pi l nu) depends on the parameter 'K+l3 delta_EM'.", "quantifier": "all values of the parameter", "why_tests_cant": "needs variation of a parameter that the function should read", "anchors": ["flavio/physics/kdecays/kpilnu.py: dBRdq2"]}
{"id": "C202", "title": "K -> pi l nu averaged over l", "statement": "The registered observables BR(KL->pilnu), BR(KS->pilnu), BR(K+->pilnu) and lnC(K->pilnu) (l = 'l') have values.", "quantifier": "all parameters and coefficients", "why_tests_cant": "no test evaluates them", "anchors": ["flavio/physics/kdecays/kpilnu.py: BR_tot, logC, observable registration"]}
{"id": "C203", "title": "Ratios in semi-leptonic kaon and hyperon decays", "statement": "In the Standard Model ln C is the logarithm of f0(m_K^2 - m_pi^2)/f0(0) for every lepton and R_T = 0; scalar and tensor couplings enter as 1 + (m_K^2 - m_pi^2)/(m_l m_s) C_S/C_V and linearly in C_T; g1/f1 of the hyperon is not changed by left-handed new physics and multiplied by (V_L - V_R)/(V_L + V_R) by right-handed.", "quantifier": "all masses, form factors and real coefficients with a defined logarithm", "why_tests_cant": "continuous parameters", "anchors": ["flavio/physics/kdecays/kpilnu.py: logC, RT", "flavio/physics/kdecays/lambdaplnu.py: g1_f1"]}
{"id": "C204", "title": "K -> pi pi and eps'/eps", "statement": "The ten matrix elements satisfy the operator identities; elements of operators with u and d cancel for isospin 2 where isospin requires it; every operator has a mirror image (L and R exchanged) with the opposite element, so that the amplitude depends only on differences of coefficients; eps'_NP is linear in the coefficients and zero if all xi_t C* are real; eps'_SM is proportional to Im xi_t and independent of the coefficients z for real V_us* V_ud.", "quantifier": "all parameters, CKM elements and coefficients", "why_tests_cant": "algebraic identities over continuous parameters; relations between 32 operators", "anchors": ["flavio/physics/kdecays/kpipi.py: Kpipi_matrixelements_SM, Kpipi_matrixelements_NP, Kpipi_amplitudes_SM, Kpipi_amplitudes_NP, epsprime_SM, epsprime_NP"]}
{"id": "C205", "title": "Matrix elements of scalar operators and Fierz identities", "statement": "For isospin 2 the elements of scalar operators of opposite chiralities follow from those of vector operators with one factor: the element of (s d)(d d) from that of the colour-crossed vector operator, and that of the colour-crossed scalar operator from that of the vector operator.", "quantifier": "all values of the matrix elements", "why_tests_cant": "a relation between two relations", "anchors": ["flavio/physics/kdecays/kpipi.py: Kpipi_matrixelements_NP"]}
{"id": "C206", "title": "Lambda_b -> Lambda l l", "statement": "The distribution in the angles of lepton and proton is an incoherent sum over helicities and never negative for |alpha| <= 1; rate, F_L and asymmetries are its moments; F_L and the asymmetries obey the corresponding inequalities at every q2 and in every bin; branching ratios are not negative and vanish outside of phase space; exchanging operators of opposite chirality reverses the hadronic asymmetries, reversing the axial lepton current the leptonic ones; at zero recoil F_L = 1/3 and asymmetries vanish; C7 of the same sign as C9 increases the rate.", "quantifier": "all transversity amplitudes, asymmetry parameters, angles, q2, bins, masses, form factors and coefficients", "why_tests_cant": "continuous parameters and integrals", "anchors": ["flavio/physics/bdecays/lambdablambdall.py: helicity_amps, transverity_amps, angular_coefficients, prefactor, get_obs, dGdq2, FL_num, AFBl_num, AFBh_num, AFBlh_num, dbrdq2, obs_int, obs_ratio_func, obs_int_ratio_func"]}
{"id": "C207", "title": "The full angular distribution of Lambda_b -> Lambda l l", "statement": "The distribution in all three angles built from the ten angular coefficients is never negative for |alpha| <= 1.", "quantifier": "all transversity amplitudes, asymmetry parameters and angles", "why_tests_cant": "a positivity property over continuous amplitudes and angles", "anchors": ["flavio/physics/bdecays/lambdablambdall.py: angular_coefficients"]}
{"id": "C208", "title": "Lambda_b -> Lambda(1520) l l", "statement": "The distribution in the three angles is an incoherent sum over helicities and never negative; rate, F_L and asymmetries are its moments averaged over the decay and its conjugate, so that hadronic asymmetries vanish; they obey the corresponding inequalities at every q2 and in every bin; without CP-violating phases the CP asymmetries vanish; at zero recoil F_L and the lepton asymmetry vanish; C7 of the same sign as C9 increases the rate.", "quantifier": "all transversity amplitudes, angles, q2, bins, masses, form factors and coefficients", "why_tests_cant": "continuous parameters and integrals", "anchors": ["flavio/physics/bdecays/lambdablambda1520ll.py: helicity_amps, transversity_amps, angular_coefficients, prefactor, get_obs, dGdq2, S, A, FL_num, AFBl_num, AFBh, AFBlh, obs_int, obs_ratio_func, obs_int_ratio_func"]}
{"id": "C209", "title": "Neutral Drell-Yan: pp -> l l", "statement": "The partonic cross section exists only for quarks of the same charge (otherwise ValueError), is the integral over the angle of the squared helicity amplitudes, in which scalar and tensor of the same helicity interfere only in the angle, and is never negative. Cross sections in bins of the dilepton mass are non-negative and add up for adjacent bins; the ratio to the Standard Model is 1 without new physics and at least 1 if only scalar and tensor operators are added; in the Standard Model all leptons have the same cross section, flavour is diagonal and quarks of the same charge are alike.", "quantifier": "all energies, bins, leptons, quarks, coefficients and continuous non-negative parton luminosities", "why_tests_cant": "continuous parameters, integrals and arbitrary luminosities", "anchors": ["flavio/physics/dileptons/ppll.py: F_qqll_SM, wceff_qqll_sm, wceff_qqll_np, sigma_qqll_partonic, dsigma_dtau_qqll, sigma_qqll_int, R_sigma_qqll_int"]}
{"id": "C210", "title": "Charged Drell-Yan: pp -> l nu", "statement": "The cross section in a bin of the transverse mass is the integral of the squared helicity amplitudes over the angles of the lepton allowed by the bin, is never negative and adds up for adjacent bins; a bin wide enough gives the closed total; in the Standard Model it is the square of the CKM element times the W propagator, for the neutrino of the flavour of the lepton only and the same for all leptons.", "quantifier": "all energies, transverse-mass ranges, quarks, leptons and coefficients", "why_tests_cant": "continuous parameters and integrals", "anchors": ["flavio/physics/dileptons/pplnu.py: F_qqlnu_SM, wceff_qqlnu_sm, dsigma_dtau_qqlnu_partial"]}
