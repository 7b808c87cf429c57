# Source of properties.jsonl, part B.
from props_a import P, p
# ---- constraint strings -------------------------------------------------
p("C26", "Bracket-notation constraints mean what they say",
  "A string like '1.67(3)(5) e-3' is read as the central value and one symmetric error per bracket; an error written with digits only counts in units of the last digit of the central value, an error with a decimal point is taken literally; all are multiplied by the power of ten.",
  "all digit strings, numbers of errors, exponents and permitted spacings",
  "infinitely many strings; regular expressions can match unintended parts",
  ["flavio/_parse_errors.py: _pattern_brackets, errors_from_string, constraints_from_string"])
p("C27", "Plus-minus constraints mean what they say",
  "A string like '(1.67 +- 0.3 + 0.1 - 0.2) e-3' (with +-, ± or \\pm) is read as central value, one symmetric error per ± term and one (right, left) pair per '+ a - b' term, all multiplied by the power of ten.",
  "all digit strings, numbers and kinds of errors, exponents",
  "infinitely many strings",
  ["flavio/_parse_errors.py: _pattern_plusminus, errors_from_string, constraints_from_string"])
p("C28", "Every accepted constraint string yields a usable constraint",
  "Any string accepted by the constraint parser produces a non-empty list of distributions, so that set_constraint either raises the documented ValueError or sets a constraint.",
  "all strings",
  "quantifies over all strings",
  ["flavio/_parse_errors.py: constraints_from_string", "flavio/statistics/probability.py: convolve_distributions"])
p("C29", "Limits, ranges, lognormal factors and plain numbers are recognised",
  "'< x @ y% CL' gives an upper limit x at level y/100, '[a, b]' a uniform distribution on exactly [a, b] (and an error if b < a), 'x */ f' a lognormal with that centre and factor, a plain number a delta distribution; each such string is recognised as that kind and no other.",
  "all numbers, exponents and permitted spacings",
  "infinitely many strings and five competing patterns",
  ["flavio/_parse_errors.py: limit_from_string, range_from_string, lognormal_from_string, constraints_from_string"])
# ---- citations ----------------------------------------------------------
p("C30", "The citation set is exactly what was registered",
  "After any sequence of register, clear and reset, the citation set contains exactly the keys registered since the last clear/reset (plus the defaults after a reset); registering an unknown key raises and changes nothing; repeated registration has no further effect.",
  "all sequences of register/clear/reset, all databases of known keys",
  "history property",
  ["flavio/citations.py: Citations.register, clear, reset, set"])
p("C31", "Collecting citations is properly scoped",
  "Inside 'with citations.collect()' registrations go only to the collected set, which starts with no registered keys; on leaving — normally or by exception, also nested — the outer citations object is restored unchanged.",
  "all programs of nested scopes, registrations and exceptions",
  "arbitrary nesting and exception points",
  ["flavio/citations.py: CitationScope", "flavio/classes.py: Observable.theory_citations"])
# ---- predictions / error propagation ------------------------------------
p("C32", "Reported parameter dependence is sound",
  "If a prediction accesses parameters by indexing, then changing any parameter not in get_dependent_parameters_sm does not change the prediction.",
  "all prediction functions, all parameter points",
  "quantifies over functions and over all alternative parameter points",
  ["flavio/functions.py: AwareDict, get_dependent_parameters_sm"])
p("C33", "The error budget groups parameters exactly by shared constraint",
  "The keys of sm_error_budget partition the parameters the observable depends on; two parameters are in one group iff they share a constraint; in each variation only the group's parameters deviate from the central values, and all of them come from the same random draw.",
  "all constraint sets, observables and random draws",
  "partition claim over all correlation structures",
  ["flavio/functions.py: sm_error_budget"])
p("C34", "SM covariance varies exactly the requested parameters",
  "In every sample used by sm_covariance the listed parameters take their random values of that sample, all others their central values; with 'all' every parameter is random; serial and parallel evaluation use the same points in the same order.",
  "all parameter sets, lists of varied parameters, N, numbers of threads",
  "schedules and subsets",
  ["flavio/functions.py: sm_covariance, _get_prediction_array_sm"])
p("C35", "Combining measurements of one observable",
  "combine_measurements uses exactly the non-pseudo (and included) measurements that currently constrain the observable, reduces correlated ones to that observable's component, returns the single constraint unchanged if there is one, and raises if there is none.",
  "all registries, include lists, observables",
  "unbounded registries",
  ["flavio/functions.py: combine_measurements"])
p("C36", "Parallel and serial uncertainties evaluate the same function calls",
  "np_uncertainty with threads>1 evaluates the observable at the same parameter points with the same argument binding as with threads=1.",
  "all observables with any argument names, positional/keyword splits",
  "all argument splits",
  ["flavio/functions.py: np_uncertainty"])
# ---- probability --------------------------------------------------------
p("C37", "Convolution of Gaussians",
  "Convolving normal distributions around a common centre yields a normal distribution with that centre and with variance equal to the sum of variances, independent of order; in the mode for sums of random variables the centres add; delta distributions are neutral; a single distribution is returned unchanged; distributions with different centres are rejected in the mode for a common centre.",
  "all lists of distributions, all variances",
  "identity over all reals and list lengths",
  ["flavio/statistics/probability.py: convolve_distributions, _convolve_gaussians"])
p("C38", "Combination of Gaussians is the product of their densities",
  "Combining normal distributions gives the normal distribution whose log-density is, up to a constant, the sum of the individual ones, independent of order; the combined standard deviation is not larger than any of the inputs.",
  "all non-empty lists of centres and positive standard deviations",
  "identity over reals and lengths",
  ["flavio/statistics/probability.py: combine_distributions, _combine_gaussians"])
p("C39", "Combination with exactly known values",
  "Combining distributions that include delta distributions returns a delta at their common value, and raises if two deltas disagree.",
  "all lists of distributions",
  "all orders and mixtures",
  ["flavio/statistics/probability.py: combine_distributions"])
p("C40", "Constructors reject invalid widths and keep valid ones",
  "The constructors of the normal, asymmetric normal, half-normal, log-normal (and Gaussian upper limit) distributions raise ValueError exactly for the documented invalid widths, factors and limits and otherwise store exactly the given numbers; the central value of a documented distribution (log-normal: with positive central value) lies in the reported support.",
  "all numeric arguments",
  "all reals",
  ["flavio/statistics/probability.py: NormalDistribution, AsymmetricNormalDistribution, UniformDistribution, HalfNormalDistribution, LogNormalDistribution, GaussianUpperLimit, DiscreteUniformDistribution, DeltaDistribution"])
p("C41", "Log-density relative to the maximum",
  "delta_logpdf is zero at the central value for every distribution (also after excluding components), and for unimodal normal-type distributions it is never positive.",
  "all distributions, exclusion tuples and points",
  "all reals, all subsets of components",
  ["flavio/statistics/probability.py: ProbabilityDistribution.delta_logpdf, MultivariateNormalDistribution.logpdf"])
p("C42", "Removing components of a multivariate normal is marginalisation",
  "reduce_dimension and logpdf with exclude use the mean and covariance with exactly the excluded rows and columns removed, preserving the order of the rest; evaluating with exclude equals evaluating the reduced distribution.",
  "all dimensions, all exclusion sets",
  "all sizes and subsets",
  ["flavio/statistics/probability.py: MultivariateNormalDistribution.reduce_dimension, logpdf"])
p("C43", "Internal rescaling does not change the multivariate normal density",
  "The log-density computed through the internally rescaled variables equals that of the normal distribution with the given central values and covariance.",
  "all dimensions, covariances and points",
  "identity over reals for every dimension",
  ["flavio/statistics/probability.py: MultivariateNormalDistribution.__init__, logpdf"])
p("C44", "Distribution names convert back and forth",
  "The string name of a distribution class consists of the words of its name in small letters, joined by underscores, without 'distribution' (except in front). For every collection of classes with different string names, a dictionary naming a distribution selects exactly the class of that name and raises KeyError for every other text, and string_to_class finds a class by its own name and by its string name; flavio's classes are such a collection.",
  "all distribution classes and all strings",
  "the set of accepted strings is infinite; injectivity is global",
  ["flavio/statistics/probability.py: class_to_string, string_to_class, class_from_string, _camel_to_underscore"])
p("C45", "Numerical distributions are probability distributions",
  "For every table of ascending positions and non-negative densities (not all but the last zero), NumericalDistribution succeeds exactly if the central value is in the range, the density integrates to one, is nowhere negative and zero outside the support, the cumulative distribution rises monotonically from 0 to 1 over the support, the quantile function inverts it, generated random values lie in the support, and the default central value is a position of largest density.",
  "all tables, all uniform random inputs",
  "all tables of all lengths",
  ["flavio/statistics/probability.py: NumericalDistribution"])
# ---- loading ------------------------------------------------------------
p("C46", "Correlation matrices are completed correctly",
  "A number x stands for the matrix with ones on the diagonal and x elsewhere; the upper right triangle (rows beginning with the diagonal) is mirrored if it is zero or has an element above 1e-8; a symmetric matrix is kept. A list is accepted exactly if it has the right number of lines, each of full length or beginning at the diagonal, with 1 on the diagonal; otherwise ValueError (TypeError for other types).",
  "all dimensions and all entries",
  "all sizes; tolerance effects",
  ["flavio/measurements.py: _fix_correlation_matrix"])
# ---- running ------------------------------------------------------------
p("C47", "SM running passes every quark threshold exactly once",
  "Running parameters between two scales integrates a contiguous chain of intervals from the initial to the final scale, split exactly at the thresholds in between, each with the number of active flavours of that interval.",
  "all pairs of scales, all orderings with respect to the thresholds",
  "all orderings incl. equality with thresholds, up and down",
  ["flavio/physics/running/running.py: rg_evolve_sm, get_nf"])
p("C48", "Configuration changes are honoured",
  "Results of running parameters always correspond to the current configuration (e.g. threshold values), whatever was computed before.",
  "all histories of configuration changes and calls",
  "stale caches only show for particular histories",
  ["flavio/physics/running/running.py: lru_cache'd rg_evolve_sm wrapper"])
# ---- io -----------------------------------------------------------------
p("C49", "List deduplication keeps first occurrences",
  "list_deduplicate returns the distinct elements in order of first occurrence.",
  "all lists",
  "all lists",
  ["flavio/io/instanceio.py: list_deduplicate"])
p("C50", "Saving only parameter differences loses nothing",
  "Loading the saved difference to the default parameters on top of the defaults reproduces the constraint on every parameter.",
  "all histories of modifications of a copy of the default parameters",
  "history property",
  ["flavio/io/instanceio.py: get_par_diff, coerce_par_obj"])
p("C51", "A dumped likelihood loads to an equivalent likelihood",
  "For every likelihood object, dump succeeds and load(dump(x)) uses the same observables, parameters, constraints and measurement selection.",
  "all likelihood objects",
  "all configurations",
  ["flavio/statistics/likelihood.py: _input_schema_dict/_output_schema_dict", "flavio/io/instanceio.py: YAMLLoadable"])
# ---- physics core -------------------------------------------------------
p("C52", "CKM products satisfy unitarity and angles sum to pi",
  "For every unitary CKM matrix: xi(a, bc) is the product of one element and one conjugated element of the matrix named by the quarks, its sums over the intermediate flavour are one for equal and zero for different external flavours, exchanging the external flavours conjugates, other names are refused, and the angles alpha, beta, gamma of the unitarity triangle have equal sign and sum to pi or -pi.",
  "all parameter values",
  "all reals",
  ["flavio/physics/ckm.py: xi, get_ckmangle_alpha/beta/gamma, ckm_* parametrisations"])
p("C53", "CP conjugation of parameters is an involution",
  "Conjugating parameters/Wilson coefficients twice returns the original, the names and their order are kept, exactly the parameters gamma and delta / the imaginary parts change sign; with the standard and the tree parametrisation the conjugated parameters give the conjugated CKM matrix.",
  "all parameter dictionaries and coefficient dictionaries",
  "all dictionaries",
  ["flavio/physics/common.py: conjugate_par, conjugate_wc", "flavio/functions.py: AwareDict"])
p("C54", "Kallen function and adding dictionaries",
  "lambda_K is totally symmetric, equals its polynomial where that is positive and zero elsewhere, and is positive exactly where one of the three masses exceeds the sum of the others; add_dict adds values key by key over all inputs, independent of order.",
  "all reals / all lists of dictionaries",
  "all reals, all lists",
  ["flavio/physics/common.py: lambda_K, add_dict"])
p("C55", "Meson mixing observables are physical",
  "For all mixing amplitudes: q/p with M12 and Gamma12 gives the eigenstates of the mixing matrix, DeltaM and DeltaGamma are the differences of their masses and widths and satisfy the textbook relations with |M12|, |Gamma12|, x, y, x12, y12, phi12 and |q/p|; a_fs is Im(Gamma12/M12); the observables do not depend on the phase convention of mesons or quarks; CP conjugation leaves mass and width differences alone and changes the sign of the asymmetries; S lies in [-1,1] and the positive mass difference is not negative.",
  "all complex M12, Gamma12 and decay amplitudes, all CKM matrices and phases",
  "all complex numbers",
  ["flavio/physics/mesonmixing/common.py: q_over_p, DeltaM, DeltaGamma, a_fs", "flavio/physics/mesonmixing/observables.py"])
p("C56", "Angular observables are physical",
  "For all helicity amplitudes and lepton masses the angular distribution of B -> V l1 l2 built from the twelve angular coefficients is the sum over lepton helicities of squared moduli of amplitudes, hence non-negative at every angle; the differential rate is non-negative, F_L lies in [0,1] in the absence of tensor amplitudes, |A_FB| <= 3/4, the CP-averaged and CP-asymmetric coefficients S_i and A_i reconstruct the coefficients of the decay and of its conjugate, the conventions of theory and experiment differ by documented signs, and the CP asymmetry of the rate lies in [-1,1].",
  "all complex helicity amplitudes, all physical q2 and lepton masses, all angles",
  "all complex numbers and angles",
  ["flavio/physics/bdecays/angular.py: angularcoeffs_general_v, helicity_amps_v", "flavio/physics/bdecays/bvll/observables.py: S_theory, A_theory, FL, AFB_theory, dGdq2"])
p("C57", "Robust minimisation returns the first success",
  "minimize_robust returns the result of the first successful attempt in the documented order, or the last attempt if none succeeds; maximize_robust returns the result with the sign of the objective restored.",
  "all objective functions and all behaviours of the underlying optimisers",
  "quantifies over optimiser behaviours",
  ["flavio/math/optimize.py: minimize_robust, maximize_robust"])
