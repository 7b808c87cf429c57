# Source of properties.jsonl, part C: properties added while the model grew.
from props_a import P, p
p("C58", "A subclass keeps its own registry",
  "A user-defined subclass of a named-object class keeps its objects apart from those of its base class: creating, deleting or clearing objects of the subclass does not change the base class's registry.",
  "all class hierarchies and histories", "depends on which class is used first",
  ["flavio/classes.py: NamedInstanceClass.__init__ (hasattr sees inherited attributes)"])
p("C59", "One distribution object used for several parameters counts for each of them",
  "If the same distribution object is added as the constraint of several parameters, get_logprobability_all accounts for each of these parameters.",
  "all histories of additions", "aliasing of objects is a property of the history, not of one call",
  ["flavio/classes.py: Constraints.get_logprobability_all (result keyed by constraint object)"])
p("C60", "A constrained, non-excluded parameter always contributes to the log-probability",
  "Whenever a parameter is constrained and not excluded, its distribution contributes to get_logprobability_all.",
  "all reachable constraint sets", "quantifies over all constraint layouts, including lists with repeated names",
  ["flavio/classes.py: Constraints.add_constraint, get_logprobability_all"])
p("C61", "One-dimensional right and left errors belong to the right parameter",
  "get_1d_errors_rightleft gives, for exactly the constrained parameters in order, the (right, left) errors of that parameter's component of its current distribution.",
  "all reachable constraint sets", "index bookkeeping over arbitrary histories",
  ["flavio/classes.py: Constraints.get_1d_errors_rightleft"])
p("C62", "Every saved constraint object can be loaded again",
  "Whatever get_yaml_dict returns for an object is accepted by from_yaml_dict of the same class.",
  "all objects, with or without constructor arguments and public attributes", "quantifies over all objects",
  ["flavio/classes.py: Constraints.get_yaml_dict, from_yaml_dict", "flavio/classes.py: YAMLLoadable"])
p("C63", "Format 'list' gives the name of an observable without arguments",
  "For an observable without arguments, argument_format(..., 'list') returns its name, as documented, whichever form (string or dictionary) it is given in.",
  "all observables without arguments, all input forms", "quantifies over all names and forms",
  ["flavio/classes.py: Observable.argument_format (list(t) of a string)"])
p("C64", "Redefining an observable in terms of itself is safe",
  "Observable.from_function with a name that is also among the inputs either defines the new prediction from the old one or raises leaving the existing observable and its prediction unchanged.",
  "all registries and input lists", "crash-point property on global state",
  ["flavio/classes.py: Observable.from_function"])
p("C65", "The implementation used for an auxiliary quantity belongs to that quantity",
  "AuxiliaryQuantity.prediction only ever uses an implementation that was declared for this quantity.",
  "all configurations", "configurations are arbitrary user data",
  ["flavio/classes.py: AuxiliaryQuantity.get_implementation"])
p("C66", "Surplus observable arguments are rejected in every form",
  "A dictionary naming an observable together with an argument it does not have is rejected, as the equivalent tuple is.",
  "all observables and dictionaries", "quantifies over all dictionaries",
  ["flavio/classes.py: Observable.argument_format"])

p("C67", "An include list is always honoured",
  "If include_measurements is given, no measurement outside it enters the likelihood.",
  "all option combinations accepted by the constructor", "quantifies over all combinations of the two lists, None and empty (a file with 'exclude_measurements: null' arrives as the empty list)",
  ["flavio/statistics/likelihood.py: MeasurementLikelihood.__init__, get_measurements"])
p("C68", "Predictions follow changes of the registered predictions and implementations",
  "After a prediction or a configured implementation is replaced, get_predictions_par returns the new predictions.",
  "all call histories", "history property of a cache",
  ["flavio/statistics/likelihood.py: MeasurementLikelihood.get_predictions_par"])
p("C69", "A ParameterLikelihood can be evaluated with its default arguments",
  "log_likelihood_par and get_central of a ParameterLikelihood constructed without a parameter list return a value.",
  "all parameter constraint sets", "quantifies over all constraint sets",
  ["flavio/statistics/likelihood.py: ParameterLikelihood"])
p("C70", "The correlation warning counts the right measurements",
  "For a fit observable o and another observable p, the number reported by the correlation warning is the number of selected measurements constraining o jointly with p; fit observables are never reported.",
  "all registries and observable lists", "counting over unbounded registries",
  ["flavio/statistics/likelihood.py: MeasurementLikelihood._warn_meas_corr"])

p("C71", "A one-observable likelihood gets numbers from a larger covariance file",
  "Loading a file with several observables into an object for a single observable stores the number (central value and variance) that computing would store.",
  "all files and observables", "quantifies over all files",
  ["flavio/statistics/likelihood.py: MeasurementCovariance.load_dict, SMCovariance.load_dict"])

p("C72", "No part of an accepted constraint string is silently ignored",
  "Two accepted constraint strings with the same central value but different lists of errors give different constraints: every error written in an accepted string enters the resulting distributions.",
  "all strings accepted by the constraint parser",
  "quantifies over all strings; the pattern for the whole string and those for the single errors are independent",
  ["flavio/_parse_errors.py: _pattern_plusminus, pattern_symmetric_err, pattern_asymmetric_err, errors_from_string"])

p("C73", "Every parameter read by a prediction is reported",
  "get_dependent_parameters_sm reports every parameter a prediction depends on, however it reads it (indexing, get with default, iteration, through copies), and evaluating with tracking gives the same value as without.",
  "all prediction functions and parameter points", "quantifies over all programs",
  ["flavio/functions.py: AwareDict, get_dependent_parameters_sm", "flavio/physics/bdecays/formfactors/b_p/bcl.py: par.get", "flavio/physics/common.py: conjugate_par"])
p("C74", "Serial and parallel uncertainties reject the same calls",
  "np_uncertainty raises for an argument given both by position and by name, whatever the number of threads.",
  "all observables, argument splits and thread numbers", "quantifies over all calls",
  ["flavio/functions.py: np_uncertainty"])
p("C75", "sm_covariance accepts observables in dictionary form and leaves them unchanged",
  "An observable given as a dictionary, a form Observable.argument_format accepts, is evaluated at every sample point, and the caller's dictionary is not modified.",
  "all observables in dictionary form, all N", "needs two samples and a shared mutable argument",
  ["flavio/functions.py: sm_covariance, _get_prediction_array_sm", "flavio/classes.py: Observable.argument_format"])

p("C76", "The asymmetric normal density is continuous and is what is sampled",
  "The density of an asymmetric normal distribution is continuous everywhere, and it is the mixture that get_random draws from: a half-normal of the left width below the centre with probability left/(left+right), a half-normal of the right width above it otherwise.",
  "all centres, widths, points and random inputs", "identity and continuity over the reals",
  ["flavio/statistics/probability.py: AsymmetricNormalDistribution.logpdf, get_random"])
p("C77", "An upper limit has the stated confidence level below it",
  "For GaussianUpperLimit and GammaUpperLimit, the cumulative distribution at the limit equals the confidence level.",
  "all limits, confidence levels in (0,1) and counts", "identity over the reals and over the (assumed) properties of the quantile functions",
  ["flavio/statistics/probability.py: GaussianUpperLimit, GammaUpperLimit, GammaDistributionPositive.cdf, ppf"])
p("C78", "Any two numbers of counts determine the third",
  "GammaCountingProcess gives the same distribution whichever two (or all three) of total, background and signal counts are given, and raises ValueError if fewer than two are given, if the given total or background is negative, or if three numbers contradict each other by more than a relative 1e-15.",
  "all counts with total = signal + background", "all reals, all subsets of arguments",
  ["flavio/statistics/probability.py: GammaCountingProcess"])
p("C79", "Upper limits accept any two numbers of counts",
  "GammaUpperLimit accepts any two of the three numbers of counts, like GammaCountingProcess.",
  "all pairs of arguments", "all subsets of arguments",
  ["flavio/statistics/probability.py: GammaUpperLimit"])
p("C80", "The support of a log-normal distribution contains its central value",
  "For every central value the constructor accepts (documented: positive or negative), the reported support is an interval containing it.",
  "all nonzero central values, all factors > 1", "sign cases over the reals",
  ["flavio/statistics/probability.py: LogNormalDistribution"])
p("C81", "Error bars of a log-normal distribution are multiplicative",
  "The n-sigma range of a log-normal distribution goes from the central value divided by factor^n to the central value times factor^n (for negative central values the other way round), and both errors are non-negative.",
  "all central values, factors and n >= 0", "identity over the reals",
  ["flavio/statistics/probability.py: LogNormalDistribution.get_error_left, get_error_right, ppf"])
p("C82", "Ranges are validated",
  "UniformDistribution and DiscreteUniformDistribution accept only non-empty ranges, the latter only central values within the range.",
  "all arguments", "all reals",
  ["flavio/statistics/probability.py: UniformDistribution, DiscreteUniformDistribution"])
p("C83", "Distributions survive conversion to a dictionary and back",
  "dict2dist applied to the dictionary of a distribution (as written by get_dict / get_yaml) returns an equal distribution, for every distribution a constructor accepts.",
  "all distributions of all classes", "quantifies over all instances",
  ["flavio/statistics/probability.py: ProbabilityDistribution.get_dict, get_yaml, dict2dist"])
p("C84", "The cumulative distribution is the integral of the density",
  "For a NumericalDistribution, cdf(t) equals the integral of pdf up to t.",
  "all tables, all t", "identity over the reals",
  ["flavio/statistics/probability.py: NumericalDistribution.__init__, cdf, pdf"])
p("C85", "Error ranges of a numerical distribution cover the requested probability",
  "The 'central' errors cover the requested fraction of the probability on each side of the central value and are not negative, 'limit' errors give one-sided limits with the requested probability, unknown methods raise ValueError.",
  "all tables, all confidence levels", "identity over the reals for all tables",
  ["flavio/statistics/probability.py: NumericalDistribution.get_error_left, get_error_right"])
p("C86", "Combining numerical distributions multiplies their densities",
  "The combination of numerical distributions lives on the intersection of their supports, its density on the grid is the normalised product of the densities; without overlap ValueError is raised.",
  "all lists of numerical distributions", "all tables and list lengths",
  ["flavio/statistics/probability.py: _combine_numerical, combine_distributions"])
p("C87", "Convolving numerical distributions adds random variables",
  "For two numerical distributions, the tabulated density of the convolution at a grid point is the probability of all pairs of grid values whose sum falls into the grid interval ending there; central value and support are the sums (of the deviations).",
  "all pairs of numerical distributions, both treatments of central values", "all tables",
  ["flavio/statistics/probability.py: _convolve_numerical"])
p("C88", "Conversion to a table keeps the distribution",
  "NumericalDistribution.from_pd keeps central value and support, and its density at the grid points is the original density up to one normalisation factor.",
  "all distributions with a proper support", "all distribution parameters",
  ["flavio/statistics/probability.py: NumericalDistribution.from_pd"])
p("C89", "Every accepted table is usable",
  "If NumericalDistribution accepts a table of ascending positions and non-negative, not all vanishing densities, then cdf, ppf and get_random return numbers.",
  "all tables", "all tables",
  ["flavio/statistics/probability.py: NumericalDistribution.__init__"])
p("C90", "Loading a file adds its constraints in order",
  "from_yaml / from_yaml_dict, with or without an existing instance, either raises or adds the constraints of all entries (full or string form) one after the other: afterwards every parameter has the constraint of the last entry mentioning it, or the one it had before; metadata set attributes and nothing else changes. Entries under a wrong key are rejected.",
  "all files, all existing objects", "all files and all prior histories",
  ["flavio/classes.py: Constraints.from_yaml_dict"])
p("C91", "string_to_class gives a distribution or raises NameError",
  "For every text, string_to_class returns a distribution class or raises NameError, and different class names have different string names. (Fails: the text is evaluated as Python, so 'string' and 'np' return whatever they evaluate to in the module; and Foo and FooDistribution share a string name.)",
  "all texts, all class names", "the set of texts is infinite",
  ["flavio/statistics/probability.py: string_to_class, class_to_string"])
p("C92", "Completed correlation matrices are symmetric with the given elements",
  "Whatever list is accepted as correlation matrix, the result is symmetric and has the given elements above the diagonal; the documented example is accepted. (Fails: different elements above and below the diagonal are added, a triangle with elements up to 1e-8 is not mirrored, and the documented example is rejected.)",
  "all lists", "all entries; tolerance effects", ["flavio/measurements.py: _fix_correlation_matrix"])
p("C93", "Measurement files are loaded as written",
  "Loading a file succeeds exactly if every measurement in it is well described. Afterwards every measurement has exactly the attributes and constraints written: one multivariate constraint for 'observables', one constraint per entry without 'correlation', and with 'correlation' one multivariate normal distribution whose covariance is the product of the total errors (quadratic sum; product of the two sides for asymmetric ones) and the completed correlation matrix; argument values are put in the order of the observable's arguments. Measurements not in the file are unchanged.",
  "all files, all prior registries", "all files and all prior histories",
  ["flavio/measurements.py: _load, read_file", "flavio/classes.py: Measurement"])
p("C94", "A failed load changes nothing and reports the problem",
  "If read_file raises, the registered measurements are unchanged and the exception is that of the problem in the file. (Fails: an erroneous measurement replaces an existing one by an incomplete one; a list in the new format always gives AttributeError; a single measurement in the new format creates in addition a measurement named like the first key of the dictionary.)",
  "all files", "needs every failure point", ["flavio/measurements.py: read_file, _load, _load_new"])
p("C95", "Correlated parameters keep their variances",
  "Reading a group of correlated parameters succeeds only for existing parameters and a covariance that passes the positivity test; the covariance has the total variances on the diagonal and off the diagonal the product of errors and given correlation, all multiplied by one, or all by 0.99.",
  "all groups", "all sizes and values", ["flavio/parameters.py: _read_yaml_object_values_correlated"])
p("C96", "Particle data determine masses and lifetimes",
  "After reading a PDG table, every particle known to flavio has a constraint on its mass and, if all widths are given and non-zero, on its lifetime 1/width, with the converted values; all other parameters are unchanged; the order of particles does not matter; names and PDG numbers correspond one to one; reading succeeds exactly if the uncertainties are positive.",
  "all tables, all orders", "set iteration order is arbitrary", ["flavio/parameters.py: FlavioParticle, read_pdg"])
p("C97", "Uncertainties of lifetimes follow from those of widths",
  "The upper uncertainty of a lifetime corresponds to the lower uncertainty of the width and vice versa (1/G is decreasing). (Fails: the two sides are exchanged, visible for every asymmetric width.)",
  "all widths and uncertainties", "all reals", ["flavio/parameters.py: FlavioParticle.flavio_tau"])

p("C98","The requested number of flavours is honoured","rg_evolve_sm with nf_out returns the parameters in the scheme with nf_out flavours, for running up and down.","all initial and final scales, all nf_out","all positions of both scales with respect to the thresholds",["flavio/physics/running/running.py: _rg_evolve_sm"])
p("C99","Results of running are independent of each other","Changing the array a call of rg_evolve_sm returned does not change the results of later calls.","all histories of calls and of changes of returned arrays","aliasing only shows in particular histories",["flavio/physics/running/running.py: rg_evolve_sm, _rg_evolve_sm (lru_cache)"])
p("C100","The running fine-structure constant is continuous and increasing","get_alpha_e returns the input parameter at the Z mass, runs its inverse linearly in the logarithm of the scale with the charges of the active fermions, has no jump at the thresholds, increases with the scale (below the Landau pole), and refuses numbers of flavours other than 3 to 6; the guessed number of flavours is the number of active ones.","all scales, thresholds in physical order, parameter values","all reals",["flavio/physics/running/running.py: run_alpha_e, get_nf, get_alpha_e"])
p("C101","Transverse decay constants run along the thresholds","get_f_perp returns the input value at 2 GeV and otherwise the product of the leading-order factors along the path from 2 GeV with three flavours through the thresholds to the final scale with the smaller of the natural and the requested number of flavours; it always returns a value.","all scales, requested flavours and strong couplings","all orderings of the scale with respect to the thresholds",["flavio/physics/running/running.py: get_f_perp, _rg_factor_f_perp"])

p("C102","Conjugated parameters give the conjugated CKM matrix","For every parametrisation of the CKM matrix, the parameters returned by conjugate_par give the complex conjugate of the matrix. (Fails for the Wolfenstein parametrisation, where nothing changes, and for 'beta gamma', where beta keeps its sign.)","all parametrisations and parameter values","all parameter values",["flavio/physics/common.py: conjugate_par","flavio/physics/ckm.py"])
p("C103","Element symbols and atomic numbers correspond","symbol and Z are inverse to each other on the atomic numbers 0 to 118 and their symbols, and refuse everything else.","all integers and texts","unbounded inputs",["flavio/physics/elements.py: symbol, Z"])
p("C104","Unsuccessful attempts are continued","As documented, the end point of an unsuccessful attempt that improved the function is the starting point of the next attempt of minimize_robust. (Fails: every attempt starts from the initial point.)","all objective functions and optimisers","all behaviours of the optimisers",["flavio/math/optimize.py: minimize_robust"])
p("C105","Pulls and differences of chi-squared are inverse to each other","For all numbers of degrees of freedom pull and delta_chi2 are inverse to each other on non-negative numbers, the p-value is the complement of the confidence level of the pull, and the special case of one degree of freedom agrees with the general formula.","all degrees of freedom, all values","all reals",["flavio/statistics/functions.py: confidence_level, delta_chi2, pull, pvalue"])
p("C106","Pulls of negative differences do not depend on special cases","The pull of a negative difference of chi-squared is treated alike for all numbers of degrees of freedom. (Fails: its absolute value is used with one degree of freedom, zero otherwise.)","all negative differences, all degrees of freedom","all reals",["flavio/statistics/functions.py: pull"])

p("C107","Multivariate normal distributions are constructed consistently","From a symmetric covariance, the constructor succeeds exactly if it is positive definite, keeps it and derives standard deviations and correlations from it; a strictly upper triangle is reflected; from standard deviations and no, one or a matrix of correlations the covariance is the product; without any of these ValueError is raised; the reported errors are multiples of the standard deviations.","all dimensions, matrices and vectors","all dimensions and real matrices",["flavio/statistics/probability.py: MultivariateNormalDistribution.__init__, get_error_left, get_error_right"])
p("C108","Missing elements below the diagonal are filled in","If the covariance matrix is not symmetric, the upper triangle is reflected at the diagonal, as documented. (Fails if all elements are below 1e-8, the absolute tolerance of numpy.allclose: the matrix is kept without the elements below the diagonal.)","all upper triangular matrices","all scales of the entries",["flavio/statistics/probability.py: MultivariateNormalDistribution.__init__"])
p("C109","Combining multivariate normals multiplies densities, convolving adds covariances","The combination of multivariate normal distributions has, up to a constant factor, the product of their densities as density; the convolution has the sum of the covariances, and the sum or the common central value.","all dimensions, numbers of distributions, covariances","all dimensions",["flavio/statistics/probability.py: _combine_multivariate_gaussians, _convolve_multivariate_gaussians, _convolve_distributions_multivariate"])
p("C110","Multivariate convolution returns a distribution or raises a documented error","convolve_distributions of multivariate distributions with the same central value returns their convolution, and raises NotImplementedError for several numerical ones. (Fails: central values given as arrays raise ValueError; two numerical distributions give None.)","all multivariate distributions","all combinations",["flavio/statistics/probability.py: _convolve_multivariate_gaussians, _convolve_distributions_multivariate"])
p("C111","delta_logpdf accepts the exclusions that logpdf accepts","Whenever logpdf accepts positions to exclude and a point, so does delta_logpdf. (Fails for negative positions, counted from the end.)","all exclusion tuples","all positions and dimensions",["flavio/statistics/probability.py: ProbabilityDistribution.delta_logpdf, MultivariateNormalDistribution.logpdf"])

p("C112", "Mixing amplitudes are linear and chirality symmetric",
  "M12 is the Standard Model amplitude plus a term linear in the Wilson coefficients, with the documented sign and matrix elements; exchanging left and right in all coefficients changes nothing; conjugating the CKM matrix and all coefficients conjugates M12 and Gamma12; Gamma12 does not depend on the coefficients.",
  "all Wilson coefficient dictionaries, parameters, CKM matrices and mesons",
  "all dictionaries and complex coefficients",
  ["flavio/physics/mesonmixing/amplitude.py: matrixelements, M12, G12_d, G12_u", "flavio/physics/mesonmixing/observables.py: get_M12_G12"])
p("C113", "Box functions: GIM cancellation and continuity",
  "The box function is symmetric, the combination S0 vanishes for degenerate quark masses, the special cases for vanishing and for equal arguments are the limits of the general formula, and for unitary CKM matrices without QCD corrections the two configured treatments of kaon mixing give the same coefficient.",
  "all real mass ratios different from 1, all unitary CKM matrices",
  "continuity and identities over the reals",
  ["flavio/physics/mesonmixing/wilsoncoefficient.py: F_box, S0_box, cvll_d"])
p("C114", "Documented meson mixing conventions hold",
  "q/p has the sign for which DeltaM is positive, phi12 is the phase of -M12/Gamma12, and x12Im is the sine of phi12, as the docstrings say. (All three fail.)",
  "all complex amplitudes",
  "all complex numbers",
  ["flavio/physics/mesonmixing/common.py: q_over_p", "flavio/physics/mesonmixing/observables.py: phi12, x12Im"])
p("C115", "A_FB and FLhat are what their names say",
  "The forward-backward asymmetry returned for B -> V l l is the asymmetry of the distribution also with scalar operators, and FLhat is a longitudinal fraction. (Both fail: A_FB leaves out the coefficient 6c, and FLhat is -1 for a purely longitudinal decay.)",
  "all helicity amplitudes",
  "all complex numbers",
  ["flavio/physics/bdecays/bvll/observables.py: AFB_theory, FLhat"])
p("C116", "Rate and forward-backward asymmetry are integrals of the angular distribution",
  "The differential rate dGamma/dq2 of B -> V l l is the integral of the four-fold differential distribution over the three angles, and without scalar and tensor operators A_FB is the normalised difference of its integrals over the two hemispheres of the lepton.",
  "all angular coefficients and helicity amplitudes",
  "integrals over continuous angles",
  ["flavio/physics/bdecays/angular.py: angularcoeffs_general_v", "flavio/physics/bdecays/bvll/observables.py: dGdq2, AFB_theory"])
p("C117", "Parity, strong phases and phase conventions of angular coefficients",
  "Exchanging the chiralities of the quark currents (and the sign of the axial lepton currents) flips the coefficients 7, 8, 9 only; without strong phases the CP asymmetries of the other coefficients and of the rate and the CP averages of 7, 8, 9 vanish; a common factor of the amplitudes enters by its modulus squared, so that quark phase conventions are unobservable.",
  "all Wilson coefficients, form factors, prefactors and masses",
  "all complex numbers",
  ["flavio/physics/bdecays/angular.py: helicity_amps_v, angularcoeffs_general_v"])
p("C118", "Interference coefficients of time-dependent decays",
  "The h coefficients describing the interference of decay and mixed decay are those of the coherent sum of the amplitudes minus those of the two separate decays; for equal amplitudes they are 2 cos(phi) times the coefficients, they change sign with the phase, and the interference rate is bounded by the sum of the rates.",
  "all pairs of helicity amplitudes, all phases",
  "all complex numbers",
  ["flavio/physics/bdecays/angular.py: angularcoeffs_h_Gbasis_v, angularcoeffs_h_v"])
p("C119", "Angular distribution of B -> P l l",
  "The distribution a + b cos + c cos^2 of B -> P l1 l2 is a sum of squared moduli of helicity amplitudes, hence non-negative; the rate and A_FB are its integrals; normalised and CP-averaged it is 3/4 (1-F_H) sin^2 + F_H/2 + A_FB cos with 0 <= F_H <= 3 (<= 1 without tensors), |A_FB| <= F_H/2, and the CP asymmetry lies in [-1,1].",
  "all helicity amplitudes, physical q2 and masses, all angles",
  "all complex numbers and angles",
  ["flavio/physics/bdecays/angular.py: angularcoeffs_general_p", "flavio/physics/bdecays/bpll.py: dGdq2, AFB_num, FH_num"])
p("C120", "Optimised observables are bounded",
  "Without tensor operators P1^2 + 4 beta^2 P2^2 + 4 P3^2 <= 1, P4'^2 + P8'^2 <= 1/2 and, without scalars, beta^2 (P5'^2 + P6'^2) <= 2 for a decay and its conjugate together; for massless leptons J1s = 3 J2s and J1c = -J2c, and the rate is the sum of the squared transversity amplitudes.",
  "all helicity amplitudes of both decays, all lepton masses",
  "all complex numbers",
  ["flavio/physics/bdecays/bvll/observables.py: P1, P2, P3, Pp", "flavio/physics/bdecays/angular.py: transversity_to_helicity"])
p("C121", "Helicity amplitudes are contractions of matrix elements",
  "The helicity amplitudes of B -> V l l and B -> P l l are the hadronic matrix elements of the vector, axial, dipole, scalar and tensor currents, written with the traditional form factors, contracted with polarisation vectors in the rest frame of the decaying meson.",
  "all form factors, Wilson coefficients, masses and q2 in the physical region",
  "identities over all real form factors and complex coefficients",
  ["flavio/physics/bdecays/angular.py: helicity_amps_v, helicity_amps_p"])
p("C122", "Only left-handed neutrinos are produced",
  "With the effective Wilson coefficients of charged-current and of neutrino neutral-current operators the amplitudes with a neutrino of the wrong helicity vanish: for B -> V l nu for all operators including tensors, for B -> P l nu without tensor operators, and for b -> s nu nu.",
  "all Wilson coefficients, form factors, lepton masses and q2",
  "all complex coefficients",
  ["flavio/physics/bdecays/wilsoncoefficients.py: get_wceff_fccc, get_wceff_nunu", "flavio/physics/bdecays/angular.py: helicity_amps_v, helicity_amps_p"])
p("C123", "Only left-handed neutrinos in B -> P l nu with tensor operators",
  "The same for B -> P l nu with a tensor coefficient. (Fails: one of the two tensor amplitudes lacks a factor sqrt(2), so that wrong-helicity neutrinos are produced whenever the tensor coefficient is non-zero.)",
  "all Wilson coefficients, form factors, lepton masses and q2",
  "all complex coefficients",
  ["flavio/physics/bdecays/angular.py: helicity_amps_p"])
p("C124", "Distributions of B -> V l nu in one angle",
  "At fixed q2 the published distributions in cos(theta_l), cos(theta_V) and phi are the lifetime times the squared helicity amplitudes, summed over neutrino flavours and integrated over the other angles, times 1/2 for rho0 and omega; they are non-negative; a bin in an angle is the integral of the distribution; the full ranges give the q2 spectrum; longitudinal and transverse parts add up to it and determine the cos(theta_V) distribution.",
  "all masses, lifetimes, Wilson coefficients, form factors, lepton flavours, q2 and angles",
  "identities over all real and complex inputs; floating-point tests sample a few points",
  ["flavio/physics/bdecays/bvlnu.py: get_angularcoeff, dG_dq2_dcosthl, dG_dq2_dcosthV, dG_dq2_dphi, dBRdq2_lep"])
p("C125", "Branching ratios in bins add up to the total",
  "For B -> V l nu: adjacent q2 bins add up, whatever their position relative to the kinematic boundaries; bins that cover the kinematic range give the total, which is the lifetime times the rate integrated over q2 and all angles; the spectrum vanishes outside the range; l is the average of e and mu; longitudinal plus transverse is the total; bins in angles add up, are integrals of the differential observables, and the full range gives the total.",
  "all decays with continuous form factors, all bin boundaries, all lepton flavours and polarisations",
  "all reals as bin boundaries, including bins that straddle or lie outside the kinematic range",
  ["flavio/physics/bdecays/bvlnu.py: BR_binned, BR_tot, BR_binned_costhl, dBR_dcosthl, kinem_allowed"])
p("C126", "Fractions and asymmetries of B -> V l nu are bounded",
  "Binned branching ratios are non-negative and grow with the bin; normalised bins lie in [0,1]; F_L is the ratio of the longitudinal to the total branching ratio and lies in [0,1]; A_FB is (forward - backward)/(forward + backward) and lies in [-1,1]; the tau-style F_L lies between -2 F_L and F_L.",
  "all decays with continuous form factors and non-zero total rate, all bins",
  "all complex Wilson coefficients and real form factors",
  ["flavio/physics/bdecays/bvlnu.py: FL_binned, FL_tot_function, Itot_norm, BR_binned_tot_function"])
p("C127", "Neutrino flavours and lepton universality",
  "Rates with other neutrino flavours never fall below those with the diagonal flavour only; if the lepton-flavour violating coefficients vanish the amplitudes are those of one neutrino; flavours with equal masses and couplings have equal branching ratios and ratio observables equal to 1; ratio observables are quotients of the published branching ratios.",
  "all Wilson coefficients, all pairs of lepton flavours, all bins",
  "all complex coefficients",
  ["flavio/physics/bdecays/bvlnu.py: _get_angularcoeff, BR_binned_leptonflavour, BR_tot_leptonflavour"])
p("C128", "Every registered B -> V l nu observable can be computed",
  "The observables registered for the average over light leptons (lep='l') can be computed like those for e, mu and tau. (Fails: F_L, its tau-style variant, A_FB and I_3 averaged over light leptons look up a parameter m_l that does not exist.)",
  "all decays and parameter values",
  "the error occurs for every parameter point but the tests only evaluate other flavours",
  ["flavio/physics/bdecays/bvlnu.py: FL_diff, FL_tot_function, Itot_norm, obs_q2int"])
p("C129", "Branching ratios of B -> P l nu",
  "The spectrum is the lifetime times the angular distribution integrated over the lepton angle and summed over neutrinos (times 1/2 for pi0), zero outside the kinematic range, non-negative; adjacent bins add up, covering bins give the total; normalised bins lie in [0,1]; ratios are quotients of the published branching ratios; l is the average of e and mu.",
  "all decays with continuous form factors, all bins and lepton flavours",
  "all reals as bin boundaries, all complex coefficients",
  ["flavio/physics/bdecays/bplnu.py: get_angularcoeff, dBRdq2_lep, BR_binned, BR_tot, BR_binned_tot_function"])

p("C130", "Integration helpers return the integral",
  "The helper that integrates rates with a photon pole by subtracting c/q2 and adding its integral back, and the one for complex functions (real and imaginary parts separately), return the integral of the function they are given, for every integrand that has one, whatever the position of the limits; for c/q2 the result is c ln(b/a). (scipy's quadrature is idealised as exact.)",
  "all integrable real or complex functions, all limits (positive if the lower one is)",
  "all functions and limits",
  ["flavio/physics/bdecays/bvll/observables.py: nintegrate_pole", "flavio/math/integrate.py: nintegrate_complex"])
p("C131", "B -> V l l: spectra, bins and angular observables come from one angular distribution",
  "dBR/dq2 is the lifetime times the CP-averaged rate integrated over all angles, zero outside the kinematic range and non-negative; bins (averages) times their width add up and equal the integral of the spectrum, also when the bin sticks out of the kinematic range; covering bins give the total. Every registered ratio S_i, A_i, FL, AFB, P_i, P_i', ATIm is, differentially, its published numerator over denominator of the coefficients of the distribution, and, in a bin, the same quotient of the coefficients integrated over the allowed part of the bin; outside the kinematic range it is 0.",
  "all decays (masses, lifetime, complex amplitudes) with integrable squared amplitudes, all q2, all bins, all registered names",
  "all amplitudes and bin boundaries",
  ["flavio/physics/bdecays/bvll/observables.py: BVllObservable, BVllObservableBinned, BVllObservableBinnedRatio, BVllObservableBinnedPprime, _observables, _observables_p, _observables_pprime"])
p("C132", "B -> V l l: bounds of binned observables and lepton-flavour ratios",
  "In every bin FL lies in [0,1] without tensor operators (never above 1 at all), |AFB| <= 3/4, P1^2 + 4 b P2^2 + 4 P3^2 <= 1 with b the squared lepton velocity at the lower end of the bin, P4'^2 + P8'^2 <= 1/2, and b(P5'^2 + P6'^2) <= 2 without scalars; R_{l l'} is the quotient of the published branching ratios, non-negative, and 1 if masses and amplitudes of the two leptons agree.",
  "all decays with integrable squared amplitudes, all bins",
  "all amplitudes and bins: bounds on integrals of quadratic forms",
  ["flavio/physics/bdecays/bvll/observables.py: BVllObservableBinnedRatio, BVllObservableBinnedPprime, bvll_obs_int_ratio_leptonflavour, bvll_obs_ratio_leptonflavour"])
p("C133", "ACP(B -> V l l) is the CP asymmetry of the rate",
  "The registered observables ACP(B->V l l), differential and binned, are (G - Gbar)/(G + Gbar) with the rates of the decay and its conjugate. (Fails: they are exactly half of it, for every decay.)",
  "all decays, q2 and bins",
  "a wrong normalisation that all regression values share",
  ["flavio/physics/bdecays/bvll/observables.py: dGdq2_diff, SA_den, _observables['ACP']"])
p("C134", "B -> P l l: spectra, bins, AFB, FH, ACP and ratios",
  "dBR/dq2 is the lifetime times the CP-averaged rate integrated over the lepton angle (half of it for pi0), zero outside the kinematic range, non-negative; bins add up, covering bins give the total; binned and differential FH and AFB are those that parametrise the angular distribution summed over the decays in the bin, AFB is (forward - backward)/(forward + backward), ACP is (G - Gbar)/(G + Gbar); 0 <= FH <= 3, |AFB| <= FH/2, |ACP| <= 1, and without tensor operators FH <= 1; R_{l l'} is the quotient of the published branching ratios and non-negative.",
  "all decays (masses, lifetime, complex amplitudes) with integrable squared amplitudes, all q2 and bins",
  "all amplitudes and bin boundaries",
  ["flavio/physics/bdecays/bpll.py: bpll_obs, bpll_dbrdq2, bpll_dbrdq2_int, bpll_dbrdq2_tot_func, bpll_obs_int_ratio_func, bpll_obs_ratio_func, bpll_obs_int_ratio_leptonflavour, AFB_num, FH_num"])
p("C135", "B_s -> V l l: published quantities are those of untagged, time-integrated decays",
  "For equal numbers of B_s and anti-B_s mesons that oscillate (any mass difference, any width difference smaller than the width, no CP violation in mixing itself) the angular distribution of all decays to the common final state, integrated over time from production on, exists and does not depend on the mass difference; dBR/dq2 is the lifetime times half its rate, zero outside the kinematic range and non-negative, and the published FL, S3, S4, S7 (differential and binned) are the corresponding coefficients of that distribution over its rate; bins add up, equal the integral of the spectrum, and covering bins give the total.",
  "all decays without tensor amplitudes (masses, lifetime, complex amplitudes with integrable products, mixing phase, width difference), all q2, all bins",
  "a statement about every pair of amplitudes and an integral over all decay times",
  ["flavio/physics/bdecays/bvll/observables_bs.py: bsvll_obs, S_theory_num_Bs, S_experiment_num_Bs, dGdq2_ave_Bs, SA_den_Bs, FL_Bs, bsvll_obs_int_ratio_func, bsvll_obs_ratio_func, bsvll_dbrdq2, bsvll_dbrdq2_int, bsvll_dbrdq2_19_func", "flavio/physics/bdecays/angular.py: angularcoeffs_h_v"])
p("C136", "B_s -> V l l: bounds, limit without width difference, lepton ratios",
  "FL lies in [0,1] at every q2 and in every bin; without a width difference spectrum, bins, FL, S3, S4, S7 are exactly those of the flavour-specific B -> V l l formulas (CP averages); the ratio of lepton flavours is the quotient of the binned branching ratios and non-negative.",
  "all decays without tensor amplitudes, all q2 and bins",
  "all amplitudes, phases and width differences",
  ["flavio/physics/bdecays/bvll/observables_bs.py: FL_num_Bs, bsvll_obs_int_ratio_func, bsvll_obs_int_ratio_leptonflavour"])
p("C137", "Coefficient dictionaries of a sector are complete",
  "get_wc(sector, scale, ...) returns for every known basis and sector a dictionary with one entry per coefficient of that sector: zero for all of them without new physics (nothing set, or all values zero), otherwise the value from the running if it returns one and zero if not, no further coefficients if the running returns only those of the sector; unknown bases and sectors raise KeyError, errors of the running are passed on.",
  "all bases, sectors (also 'all' and names in use before v0.27), initial values, and results of the running",
  "all bases and results of the running",
  ["flavio/physics/eft.py: WilsonCoefficients.get_wc, get_wcxf"])
p("C138", "Old and new names of sectors are interchangeable",
  "Every sector name used before v0.27 stands for exactly one WCxf sector - charged currents drop the neutrino flavour, lepton-flavour conserving neutral currents the leptons, flavour-violating ones exchange quarks and leptons - and get_wc and get_wcxf return the same for both; all other names stand for themselves, translating twice changes nothing.",
  "all strings as sector names, all objects, scales and bases",
  "all strings",
  ["flavio/physics/eft.py: sectors_flavio2wcxf, WilsonCoefficients.get_wc, get_wcxf"])
p("C139", "Predictions with one Wilson object do not influence each other",
  "Whatever predictions (with whatever CKM parameters, in whatever order) and own calls are made with one wilson.Wilson object, each prediction is the one for the parameters it is made with and the owner's calls return results for the options the owner has set.",
  "all histories of predictions, own runs and own changes of options",
  "all histories",
  ["flavio/physics/eft.py: WilsonCoefficients.from_wilson", "flavio/classes.py: Observable.prediction_par, prediction_central, Prediction.get_central"])
p("C140", "The number of flavours selects the theory",
  "nf_out = 5, 4, 3 gives the same coefficients as eft = 'WET', 'WET-4', 'WET-3', and any other number is rejected with ValueError.",
  "all objects, sectors, bases and integers",
  "all objects and integers",
  ["flavio/physics/eft.py: WilsonCoefficients.get_wc, get_wcxf"])
p("C141", "Initial values can be read back in the flavio basis",
  "After initial values were accepted, get_initial_wcxf returns them in the flavio basis (as its documentation says); before, it raises ValueError.",
  "all initial values in all bases",
  "all bases",
  ["flavio/physics/eft.py: WilsonCoefficients.set_initial, set_initial_wcxf, get_initial_wcxf"])
p("C142", "B -> l l: rates, time integration, effective lifetime",
  "The prompt branching ratio is the lifetime times two-body phase space times the squared matrix element of the vector, axial, scalar and pseudoscalar currents (the SM contributes only to lepton-flavour conserving decays), non-negative; for an oscillating, untagged B_s with any mass difference and any mixing phase the published time-integrated branching ratio is that of all decays from production on, the effective lifetime is the mean decay time, the asymmetry ADeltaGamma lies in [-1,1], the effective lifetime and the time-integrated branching ratio lie between those of the two mass eigenstates, which are reached for pure pseudoscalar and pure scalar amplitudes, and they are connected by the known relation; without width difference both branching ratios agree; lepton-flavour violating channels are zero without new physics, their sum is symmetric.",
  "all masses below threshold, lifetimes, width differences smaller than the width, complex coefficients, lepton pairs",
  "all complex coefficients and an integral over all decay times",
  ["flavio/physics/bdecays/bll.py: br_lifetime_corr, amplitudes, S, P, ADeltaGamma, br_inst, br_timeint, bqll_obs, bqll_obs_lsum, bqll_obs_lfv, tau_ll"])
p("C143", "P -> l nu and tau -> P nu: sum over neutrino flavours of two-body widths",
  "Branching ratios and widths of B+, Bc, K+, pi+ (and of D+, Ds without scalar operators) are lifetime times the sum over the three neutrino flavours of phase space times squared matrix element, the SM contributing to one flavour; they are non-negative; with flavour-universal vector couplings ratios of lepton flavours depend only on masses (helicity suppression); the same for tau -> K nu, tau -> pi nu.",
  "all masses, decay constants, CKM elements, complex coefficients for all lepton and neutrino flavours",
  "all coefficients and masses",
  ["flavio/physics/bdecays/blnu.py: br_plnu_general, br_blnu, br_bclnu", "flavio/physics/ddecays/dlnu.py", "flavio/physics/kdecays/klnu.py: br_kl2, br_plnu, r_plnu", "flavio/physics/taudecays/taupnu.py: br_taupnu, br_taupnu_general"])
p("C144", "D -> l nu with scalar operators uses the quark masses of the meson",
  "In D+ -> l nu and Ds -> l nu scalar operators contribute with m_D^2/(m_c + m_d) and m_Ds^2/(m_c + m_s).",
  "all masses and coefficients",
  "all parameters",
  ["flavio/physics/ddecays/dlnu.py: br_dlnu, br_dslnu"])
p("C145", "tau -> l nu nu: SM limit and new physics in other flavours",
  "Without new physics the branching ratio, summed over neutrino flavours, is the SM one with its electromagnetic correction, only the SM flavours contribute, and the effective Fermi constant is the measured one; without right-handed charged leptons every flavour combination contributes a non-negative amount and new physics in other flavours only adds; a coefficient counts the same whether it is given under the name of the operator or of its hermitian conjugate.",
  "all masses, lifetimes, couplings, coefficients for all neutrino flavours",
  "all coefficients and the logarithmic phase-space function for all mass ratios",
  ["flavio/physics/taudecays/taulnunu.py: F, G, _BR, GFeff, _BR_taulnunu, BR_taulnunu, BR_taulnunu_summed"])
p("C146", "tau -> l nu nu: branching ratios are non-negative",
  "The branching ratio of tau -> l nu nu is non-negative for all coefficients.",
  "all masses and coefficients",
  "all coefficients",
  ["flavio/physics/taudecays/taulnunu.py: _BR, BR_taulnunu_summed"])
p("C147", "Decays of a fermion to a fermion and a boson",
  "The width of a fermion decaying to a massive vector and a fermion is phase space times the sum over polarisations and parities of squared helicity amplitudes, for all six couplings, hence non-negative; the same for a scalar; for the photon only the two transverse polarisations contribute, so that l -> l' gamma is proportional to |C_12|^2 + |C_21|^2, non-negative, and zero without new physics.",
  "all masses with an allowed decay, all complex couplings",
  "all masses and couplings",
  ["flavio/physics/taudecays/common.py: GammaFsf, GammaFvf", "flavio/physics/taudecays/taulgamma.py: BR_llgamma", "flavio/physics/mudecays"])
p("C148", "Expansion variable z",
  "For positive masses and q2 up to the pair-production threshold the conformal variable z is defined, lies in [-1, 1), is zero at t0 and strictly decreasing in q2; above the threshold a ValueError is raised. With the default t0 the physical region 0 <= q2 <= t_- is mapped to an interval symmetric around zero. With t0 = t_- the recoil w is an exact rational function of z and the polynomials used for (w-1)^n are its Taylor polynomials to the requested order; orders above 3 are refused.",
  "all positive masses, all q2, all choices of t0, all orders",
  "all masses and momentum transfers",
  ["flavio/physics/bdecays/formfactors/common.py: z, w_minus_1_pow_n"])
p("C149", "f+(0) = f0(0)",
  "At zero momentum transfer the vector and scalar form factors of a pseudoscalar-to-pseudoscalar transition coincide, for every registered implementation (B -> K, pi, D; D -> K, pi; K -> pi; BSZ, BCL with Isgur-Wise tensor, BCL with t0 = 0, BCL-LMVD, CLN, dispersive) other than the plain BCL ones, for all parameter values.",
  "all implementations other than plain BCL, all parameter dictionaries",
  "all parameter values",
  ["flavio/physics/bdecays/formfactors/b_p/bsz.py: ff", "flavio/physics/bdecays/formfactors/b_p/bcl.py: ff, ff_isgurwise", "flavio/physics/bdecays/formfactors/b_p/bcl_lmvd.py: ff", "flavio/physics/bdecays/formfactors/b_p/cln.py: ff, h_to_f", "flavio/physics/ddecays/formfactors/bsz.py: ff", "flavio/physics/kdecays/formfactors.py: fp0_dispersive, fT_pole"])
p("C150", "f+(0) = f0(0) for the plain BCL parametrisation",
  "The plain BCL implementations (B -> P BCL3 and BCL4, D -> P BCL2) choose the last coefficient of f0 such that f+(0) = f0(0).",
  "all parameter dictionaries",
  "all parameter values",
  ["flavio/physics/bdecays/formfactors/b_p/bcl.py: ff", "flavio/physics/ddecays/formfactors/bcl.py: ff"])
p("C151", "BCL parametrisations: behaviour at the threshold",
  "In every BCL implementation the vector and tensor form factors, without the resonance pole, differ from their value at the threshold t_+ by at most a constant times t_+ - q2: the square-root term that angular momentum conservation forbids is absent, for all coefficients and all numbers of coefficients used.",
  "all BCL implementations and transitions, all parameter dictionaries with positive masses, all q2 up to the threshold",
  "all coefficients and q2",
  ["flavio/physics/bdecays/formfactors/b_p/bcl.py: param_fplusT, ff, ff_isgurwise", "flavio/physics/bdecays/formfactors/b_p/bcl_lmvd.py: param_fplusT, ff", "flavio/physics/ddecays/formfactors/bcl.py: ff"])
p("C152", "B -> V form factors at zero momentum transfer",
  "At zero momentum transfer A0 (mB^2 - mV^2) = 8 mB mV A12 for BSZ2, BSZ3, CLN and CLNexp-IW, and T1 = T2 for BSZ2, BSZ3 and CLN, for all parameter values.",
  "all transitions and implementations other than SSE, all parameter dictionaries",
  "all parameter values",
  ["flavio/physics/bdecays/formfactors/b_v/bsz.py: ff", "flavio/physics/bdecays/formfactors/b_v/cln.py: h_to_A, ff", "flavio/physics/bdecays/formfactors/b_v/clnexp.py: ff"])
p("C153", "CLNexp-IW tensor form factors at zero momentum transfer",
  "For 'B->D* CLNexp-IW' T1(0) = T2(0), and T23 at q2 = 0 is the limit of T23 at small q2, for all power corrections.",
  "all parameter dictionaries",
  "all parameter values",
  ["flavio/physics/bdecays/formfactors/b_v/isgurwise.py: isgur_wise", "flavio/physics/bdecays/formfactors/b_v/clnexp.py: ff"])
p("C154", "Form factors leave the parameter dictionary alone",
  "Evaluating a form factor does not change the dictionary of parameters passed by the caller.",
  "all parameter dictionaries and q2",
  "all states of the dictionary and repeated calls",
  ["flavio/physics/bdecays/formfactors/b_v/bsz.py: ff", "flavio/physics/bdecays/formfactors/lambdab_12/sse.py: ff"])
p("C155", "Lambda_b -> Lambda form factors at maximal momentum transfer",
  "At q2 = (m_Lambdab - m_Lambda)^2 the axial form factors fAperp and fA0 coincide, as do fT5perp and fT50, for all parameter values.",
  "all implementations and parameter dictionaries",
  "all parameter values",
  ["flavio/physics/bdecays/formfactors/lambdab_12/sse.py: ff", "flavio/physics/bdecays/formfactors/lambdab_12/lambdab.py"])
p("C156", "Lambdab->Lambda SSE3 uses three coefficients",
  "The implementation 'Lambdab->Lambda SSE3' (the default) uses three coefficients per form factor.",
  "all parameter dictionaries, all q2",
  "all parameter values",
  ["flavio/physics/bdecays/formfactors/lambdab_12/lambdab.py"])
p("C157", "Registered form-factor implementations can be evaluated",
  "Every form-factor implementation registered for a transition can be evaluated for some parameters.",
  "all registered implementations, all parameter dictionaries and q2",
  "all parameter values",
  ["flavio/physics/bdecays/formfactors/b_p/btop.py", "flavio/physics/bdecays/formfactors/b_p/bcl_lmvd.py: process_dict", "flavio/physics/bdecays/formfactors/b_v/btov.py", "flavio/physics/bdecays/formfactors/b_v/sse.py: process_dict"])
p("C158", "CLN form factors at zero recoil",
  "At maximal momentum transfer the CLN form factors A1 (B -> D*) and f0 (B -> D), in the heavy-quark normalisation, are one up to radiative corrections and corrections of second order in 1/m_c: slope, curvature and all first-order subleading parameters drop out.",
  "all parameter dictionaries with positive masses, all values of the HQET functions",
  "all parameter values",
  ["flavio/physics/bdecays/formfactors/b_v/cln.py: ff, h_to_A", "flavio/physics/bdecays/formfactors/b_p/cln.py: ff, h_to_f", "flavio/physics/bdecays/formfactors/hqet.py: xi, Lz, ell"])

p("C159", "Electroweak observables do not depend on operator combinations removable by field redefinitions",
  "Adding to any set of Warsaw-basis coefficients, in any amount, one of the two combinations of operators that the equations of motion of the B and W fields turn into operators without fermion currents (hypercharge currents, or flavour-universal left-handed triplet currents, with the matching phiD and phiWB) leaves unchanged the prediction of m_W, of all flavour-changing and neutrino Z widths, of flavour-conserving Z widths and asymmetries of fermions whose effective mixing angle is the tree-level one, and of the W widths (hypercharge combination: all; triplet combination: those without change of generation).",
  "all coefficients, all amounts, all parameters fulfilling the tree-level relation, all fermions",
  "all coefficient values and parameters",
  ["flavio/physics/zdecays/smeftew.py: d_gV, d_gA, d_gW, d_gZb, d_sh2", "flavio/physics/zdecays/gammaz.py: GammaZ", "flavio/physics/zdecays/afbz.py", "flavio/physics/wdecays/gammaw.py: GammaW", "flavio/physics/wdecays/mw.py"])
p("C160", "Z widths, ratios and asymmetries are consistent",
  "The Z width to a fermion pair is the SM width plus the change of the squared couplings whose ratio determines the asymmetry; for new physics in fermion currents the couplings shift by the coefficients of the left- and right-handed currents of that fermion; asymmetries lie in [-1,1], forward-backward asymmetries in [-3/4,3/4]; flavour-changing widths are non-negative, symmetric in the two fermions and vanish without flavour-changing coefficients; the total width is the sum of hadronic, leptonic and invisible widths; ratios R_q, R_l and the hadronic peak cross section are the corresponding ratios; without new physics e and mu, d and s, and the three neutrinos agree.",
  "all coefficients, parameters and fermions",
  "all coefficient values and parameters",
  ["flavio/physics/zdecays/gammaz.py", "flavio/physics/zdecays/gammazsm.py", "flavio/physics/zdecays/afbz.py", "flavio/physics/zdecays/smeftew.py"])
p("C161", "W widths and branching ratios are consistent",
  "Without new physics and with normalised CKM rows the leptonic and hadronic W widths are the SM ones, lepton-flavour ratios are 1 and R_cX is 1/2; leptonic branching ratios and the hadronic fraction add up to 1 with any new physics; for real CKM elements the change of a partial width is that of the squared coupling.",
  "all coefficients, parameters and final states",
  "all coefficient values and parameters",
  ["flavio/physics/wdecays/gammaw.py"])
p("C162", "Flavour-universal new physics does not give lepton-flavour violating W decays",
  "If the only new physics is the flavour-universal coefficient phiWB, the width of W -> e nu_mu vanishes.",
  "all values of the coefficient and parameters",
  "all coefficient values and parameters",
  ["flavio/physics/zdecays/smeftew.py: d_gWl, d_gWq", "flavio/physics/wdecays/gammaw.py: GammaW"])
p("C163", "W widths do not depend on quark phase conventions",
  "Multiplying V_ub and the coefficient of the corresponding W u b coupling by the same phase leaves the width of W -> u b unchanged.",
  "all coefficients, CKM matrices and phases",
  "all coefficient values and parameters",
  ["flavio/physics/wdecays/gammaw.py: GammaW_NP"])
p("C164", "Higgs signal strengths",
  "All Higgs production cross sections, partial widths and signal strengths are 1 without new physics; production and decay modes depend linearly on the real parts of the coefficients (effects of different coefficients add up); VH and VV lie between their W and Z versions; gluon fusion and h->gg agree up to phiG, fermionic modes up to their own Yukawa coefficient; the total width changes by the sum of SM branching ratios times changes of partial widths plus a non-negative term that vanishes iff the light-quark Yukawa coefficients vanish; a signal strength is production times decay over width and each of the observables has its own name.",
  "all coefficients, GF > 0, production and decay modes",
  "all coefficient values",
  ["flavio/physics/higgs/decay.py", "flavio/physics/higgs/production.py", "flavio/physics/higgs/width.py: Gamma_h", "flavio/physics/higgs/signalstrength.py"])
p("C165", "Higgs signal strengths are non-negative",
  "Every Higgs signal strength is non-negative.",
  "all coefficients, GF > 0, production and decay modes",
  "all coefficient values",
  ["flavio/physics/higgs/production.py", "flavio/physics/higgs/signalstrength.py: higgs_signalstrength"])
p("C166", "ee -> WW cross-section ratio",
  "The ratio of the e+e- -> W+W- cross section to the SM one is defined exactly for the ten tabulated energies (ValueError otherwise), is 1 without new physics, linear in the real parts of the coefficients and depends only on eight of them.",
  "all energies and coefficients",
  "all coefficient values",
  ["flavio/physics/scattering/ee_ww.py: ee_WW"])
p("C167", "Differential ee -> WW cross section is normalised to the SM",
  "The differential cross-section ratio, documented as normalised to the SM, is 1 in every bin without new physics.",
  "all bins and energies (modelled: the outermost bins of the first energy)",
  "all bins",
  ["flavio/physics/scattering/ee_ww.py: ee_WW_diff"])
p("C168", "Neutrino tridents and anomalous magnetic moments",
  "The trident cross section relative to the SM is 1 without new physics, non-negative, increased by couplings to other neutrino flavours, and the ratio of squared left- and right-handed couplings to those of tree-level W and Z exchange; the anomalous magnetic moment of a lepton is the SM value plus a shift proportional to m^2 and to the real part of the dipole coefficient, positive iff that is positive.",
  "all coefficients and parameters",
  "all coefficient values",
  ["flavio/physics/neutrinos/trident.py: R_trident", "flavio/physics/mdms/al.py"])
p("C169", "Lepton-flavour violating decays to three leptons",
  "BR(tau -> l1 l2 l3) can be computed exactly for the six decays and raises otherwise; it vanishes without new physics, is quadratic in the coefficients, equal for CP-conjugate and parity-mirrored coefficients, and non-negative exactly if the logarithms of the mass ratios exceed 17/4 (identical leptons) or 4; with dipole coefficients only it has the fixed ratio alpha/(3 pi)(log - 11/4 or 3) to the radiative decay; the same for mu -> 3e, which is the tau formula with the muon mass and rate.",
  "all coefficients, masses and final states",
  "all coefficient values and all final states",
  ["flavio/physics/taudecays/tau3l.py: wc_eff, BR_taul1l2l3", "flavio/physics/mudecays/mu3e.py", "flavio/physics/taudecays/taulgamma.py"])
p("C170", "Muon to electron conversion in nuclei",
  "CR(mu-e) is m_mu^5/capture rate times the sum of the squared amplitudes for left- and right-handed electrons; independent of GF, non-negative, zero without new physics, quadratic, invariant under CP conjugation and parity, and under the simultaneous exchange of u and d quarks and of the overlap integrals of protons and neutrons.",
  "all coefficients, nuclei and charges",
  "all coefficient values",
  ["flavio/physics/mudecays/mueconversion.py: CR_mue", "flavio/physics/edms/common.py: proton_charges"])
p("C171", "Lepton-flavour violating tau decays to a meson",
  "tau -> rho l, phi l is the two-body rate with the couplings of the quark content of the meson (dipole via quark charges); tau -> pi0 l with the axial and pseudoscalar couplings of u minus d; tau -> K0 l with primed minus unprimed coefficients. Rates are non-negative, quadratic, invariant under parity; rho depends on u - d only, pi0 vanishes for isospin-symmetric and K0 for parity-even coefficients; l = tau raises KeyError.",
  "all coefficients, mesons, leptons and masses above threshold",
  "all coefficient values",
  ["flavio/physics/taudecays/tauvl.py: br_tauvl", "flavio/physics/taudecays/taupl.py: br_taupl"])
p("C172", "Dipole moments of quarks are proportional to their own mass",
  "The (chromo-)electric dipole moment of fermion f is 4GF/sqrt2 e/(8 pi^2) m_f Im C7_ff (C8 without e) with the mass of f, as documented.",
  "all fermions and parameters",
  "all fermions, parameters and coefficients",
  ["flavio/physics/edms/common.py: get_m, edm_f, cedm_f"])
p("C173", "Electric dipole moments violate CP",
  "Dipole moments of fermions and of paramagnetic systems are additive in the coefficients, change sign under CP, and vanish for real coefficients; that of the neutron is non-negative and homogeneous; the electron-nucleus coupling is the average of proton and neutron couplings with the charges of mu-e conversion; unknown fermion, EFT and system raise ValueError, KeyError, KeyError.",
  "all coefficients, fermions, systems and parameters",
  "all coefficient values",
  ["flavio/physics/edms/common.py", "flavio/physics/edms/neutronedm.py: nedm", "flavio/physics/edms/slcouplings.py: CS", "flavio/physics/edms/paraedm.py"])
p("C174", "Paramagnetic systems use the proton and neutron numbers of their heavy nucleus",
  "The electron-nucleus contribution to d_Tl, omega_YbF, omega_HfF and omega_ThO is that of the heavy nucleus of the system.",
  "all parameters and coefficients",
  "all parameters and coefficients",
  ["flavio/physics/edms/paraedm.py: atoms, molecules"])

# ---- rare decays with neutrinos, photons, leptons of different flavour; loop functions
p("C178", "Decays B -> M nu nu: rates, polarisation and bins",
  "For all kinematics in the phase space the rate of B -> V nu nu is the sum over pairs of neutrino flavours of the non-negative rates of the longitudinal, parallel and perpendicular polarisations, that of B -> P nu nu of the f+ rate; half of it for pi0 and rho0; FL is the longitudinal fraction, between 0 and 1 and 0 where the rate vanishes; at and beyond the endpoint everything is 0. Binned values are averages of the rates, additive over adjacent bins; BRtot is the bin of all q2; binned FL is the ratio of the integrals.",
  "all parameters, form factors, Wilson coefficients, q2 and bins",
  "continuous range of q2, form factors and coefficients; special cases at endpoints",
  ["flavio/physics/bdecays/bvnunu.py", "flavio/physics/bdecays/bpnunu.py", "flavio/physics/bdecays/angular.py"])
p("C179", "New physics in B -> M nu nu",
  "Left-handed lepton-flavour dependent new physics multiplies all rates by one q2-independent factor and leaves FL unchanged; B -> P nu nu depends only on the sum of left- and right-handed coefficients of each pair of flavours; flavour-violating coefficients can only increase the rates.",
  "all coefficients, decays and q2",
  "all 18 complex coefficients",
  ["flavio/physics/bdecays/bvnunu.py: prefactor, get_ff, bvnunu_obs_summed", "flavio/physics/bdecays/bpnunu.py", "flavio/physics/bdecays/wilsoncoefficients.py: CL_SM"])
p("C180", "Decays K -> pi nu nu",
  "BR(K+ -> pi nu nu) is a non-negative factor times the sum over pairs of flavours of |A_ij|^2, BR(KL -> pi0 nu nu) the same with (Im A_ij)^2: the Grossman-Nir bound holds whatever the new physics, KL does not decay if CP is conserved, only sums of left- and right-handed coefficients enter, and flavour-violating coefficients add without interference.",
  "all parameters and coefficients",
  "all coefficient values",
  ["flavio/physics/kdecays/kpinunu.py", "flavio/physics/bdecays/wilsoncoefficients.py: get_wceff_nunu"])
p("C181", "The K -> pi nu nu prediction does not depend on the scale of the electromagnetic coupling",
  "Without new physics the branching ratios depend only on alpha_e(MZ), not on the value of alpha_e at the low scale used in intermediate steps.",
  "all parameters",
  "all parameter values",
  ["flavio/physics/kdecays/kpinunu.py: prefactor, amplitude", "flavio/physics/bdecays/wilsoncoefficients.py: CL_SM"])
p("C182", "Lepton-flavour violating B decays B -> M l l'",
  "Within the phase space the rates of B -> P l l' and B -> V l l' are the sums of the squared vector, axial, scalar and pseudoscalar amplitudes with non-negative kinematic factors, zero outside; totals are the integrals over the phase space, non-negative, and 0 for negligible coefficients; the rate for both charges is the sum and symmetric; B -> P depends on sums of primed and unprimed coefficients; rates are quadratic in the coefficients and unchanged under exchange of the leptons with a change of sign of the scalar coefficients.",
  "all coefficients, form factors, masses, pairs of leptons and q2",
  "continuous range of q2, form factors and coefficients",
  ["flavio/physics/bdecays/bpll_lfv.py", "flavio/physics/bdecays/bvll/lfv.py", "flavio/physics/bdecays/wilsoncoefficients.py: get_wceff_lfv"])
p("C183", "Isospin of lepton-flavour violating decays to rho0",
  "The rate of B0 -> rho0 l l' contains the factor 1/2 of the quark content of the rho0, as in all other decays to rho0 and pi0.",
  "all coefficients, form factors, masses, pairs of leptons",
  "all parameter values",
  ["flavio/physics/bdecays/bvll/lfv.py: bvll_lfv_obs_int_..., BR_tot"])
p("C184", "Observables of B -> V gamma",
  "From the four amplitudes of the decay and its CP conjugate: the branching ratio is the lifetime times the CP-averaged width, non-negative; ACP is in [-1, 1]; S and ADeltaGamma are imaginary and real part of one interference term, so that S^2 + ADeltaGamma^2 <= |q/p|^2 (1 - ACP^2); they vanish without right-handed photons, ACP without CP violation; the time-integrated branching ratio is BR (1 - ADG y)/(1 - y^2), within factors 1/(1+-|y|) of BR.",
  "all amplitudes, lifetimes, q/p and width differences",
  "all complex amplitudes",
  ["flavio/physics/bdecays/bvgamma.py"])
p("C185", "Loop functions h and F_87 with special cases",
  "h(s, mq, mu) is defined for all s >= 0, mq >= 0 except s = mq = 0 (ValueError); real below the threshold s = 4 mq^2, with an imaginary part that grows from 0 to at most 4 pi/9 above; changes by 8/9 log of the ratio when the scale changes and depends on ratios only; it is continuous for s > 0 across the threshold, and the special cases s = 0 and mq = 0 are the limits, with explicit error bounds. F_87 at q2 = 0 is the limit of its values, with constant imaginary part.",
  "all q2, quark masses and scales",
  "continuous range; limits at special cases and threshold",
  ["flavio/physics/bdecays/matrixelements.py: h, F_87", "flavio/math/functions.py"])
p("C175", "Total Wilson coefficients of flavour-changing neutral currents",
  "wctot_dict adds to every new-physics coefficient the Standard Model contribution of that name and sector, linearly interpolated in the scale: C10 with the dependence on the top mass, C7 and C8 such that the effective coefficients C7eff and C8eff without new physics are the tabulated ones, C7' and C8' with m_s/m_b for b -> s only, none for other names; the effective coefficients are completed consistently. nf_out other than 5, a scale outside [2, 5.5] GeV and an unknown sector raise NotImplementedError, ValueError and KeyError, in this order, after errors of get_wc.",
  "all new-physics coefficients, tables, scales, masses and the nine sectors",
  "all coefficient values and scales; nine sectors times 34 names",
  ["flavio/physics/bdecays/wilsoncoefficients.py: wcsm_nf5, fcnclabels, wctot_dict, get_C78eff", "flavio/physics/common.py: add_dict"])
p("C176", "Effective Wilson coefficients for B -> M l l",
  "get_wceff is defined for all q2 > 0 and raises ValueError at q2 = 0; it is linear in the coefficients; effective coefficients of different leptons differ exactly by their C9, C10, CS, CP (with m_b) coefficients: quark loops are lepton-universal; loop corrections have the documented structure in C1...C6, C8eff and xi_u/xi_t.",
  "all coefficients, leptons, q2, scales, masses and values of the tabulated functions",
  "all complex coefficients",
  ["flavio/physics/bdecays/wilsoncoefficients.py: get_wceff", "flavio/physics/bdecays/matrixelements.py: Y, Yu, delta_C7, delta_C9, F_89, SeidelC, Fu_17, Fu_27, Fu_19, Fu_29"])
p("C177", "One-loop matrix elements of four-quark operators",
  "Y depends on the scale through 8/9 log(mu'/mu) times one fixed combination of C1...C6 at all q2; Yu does not depend on the scale and vanishes for a massless charm quark; for real coefficients and below the b threshold the imaginary part of Y is that of massless quarks plus a fraction between 0 and 1 of a massless charm quark, 0 below the charm threshold.",
  "all q2 > 0, scales, masses and coefficients",
  "continuous range of q2 with thresholds",
  ["flavio/physics/bdecays/matrixelements.py: h, Y, Yu"])
p("C186", "Conventions and electroweak correction of charged-current coefficients",
  "The coefficients of get_wceff_fccc and get_wceff_fccc_std describe the same operators: v - a, vp - ap, s - p, sp - pp, tp are VL, VR, SR, SL, T, and v + a etc. vanish. The electroweak correction is a constant sqrt(1.0232) for K and pi decays, and otherwise 1 at m_Z and grows with log(1/scale) times alpha_e/pi.",
  "all coefficients, scales and flavour numbers",
  "all coefficient values and scales",
  ["flavio/physics/bdecays/wilsoncoefficients.py: get_CVLSM, get_wceff_fccc, get_wceff_fccc_std"])
_QV = "flavio/physics/quarkonium/Vll.py: getVT_lfv, getVT_lfc, Vll_br, Vll_br_comb_func, Vll_ratio_func"
p("C187", "Leptonic decays of vector quarkonia",
  "The branching ratio is not negative for any coefficients; both charge combinations of two different leptons have the same branching ratio, and combined observables are twice it; without new physics it is 4 pi/3 (alpha Q f)^2 tau/m times sqrt(1-4y^2)(1+2y^2) with y = m_l/m, so heavier leptons are produced less often and the couplings are universal; the branching ratio is proportional to the lifetime and ratios do not depend on it.",
  "all complex Wilson coefficients, masses with an open decay, decay constants, lifetimes and lepton pairs",
  "continuous coefficients and masses; tests compare a few values of one paper",
  [_QV])
p("C188", "Leptonic decays of scalar and pseudoscalar quarkonia",
  "The branching ratios are not negative for any coefficients and gluonic operators; the two charge combinations of a scalar meson agree if the real coefficients of the gluonic operators are exchanged with the leptons.",
  "all complex coefficients, masses with an open decay, decay constants",
  "continuous coefficients and masses",
  ["flavio/physics/quarkonium/Pll.py: getS_lfv, Pll_br", "flavio/physics/quarkonium/Sll.py: getS_lfv, Sll_br"])
p("C189", "Charge symmetry of pseudoscalar quarkonium decays",
  "The two charge combinations of a pseudoscalar meson have the same branching ratio (as those of the scalar and vector mesons, in the absence of gluonic operators).",
  "all complex coefficients and masses",
  "continuous coefficients; only combinations of scalar and vector coefficients show the difference",
  ["flavio/physics/quarkonium/Pll.py: getS_lfv, Pll_br"])
p("C190", "Current conservation in pseudoscalar quarkonium decays",
  "The divergence of the vector current of two leptons with equal masses vanishes, so that it does not contribute to the decay of a pseudoscalar, and that of the axial-vector current does not vanish.",
  "all vector coefficients and equal lepton masses",
  "a relation between all coefficient values at a boundary of the mass range",
  ["flavio/physics/quarkonium/Pll.py: getS_lfv, Pll_br"])
p("C191", "Radiative lepton-flavour violating decays of vector quarkonia",
  "The kinematic functions (except Fhat_P, C192) vanish when the lepton is as heavy as the meson; those that multiply absolute squares are not negative between 0 and 1; all are continuous at zero lepton mass with the special values of the code there; both charge combinations have the same branching ratio if the photon couplings are exchanged with the leptons; for equal masses there is no result but an UnboundLocalError.",
  "all mass ratios between 0 and 1, all coefficients and lepton pairs",
  "continuous mass ratio with a limit at 0",
  ["flavio/physics/quarkonium/Vllgamma.py: F_A, F_S, Ftilde_S, Fhat_S, F_PA, Ftilde_PA, getWC_lfv, Vllgamma_br"])
p("C192", "Positivity of radiative quarkonium decays",
  "The branching ratio of V -> l l' gamma is not negative and vanishes at threshold.",
  "all coefficients and masses with an open decay",
  "needs the worst case over all coefficients",
  ["flavio/physics/quarkonium/Vllgamma.py: Fhat_P, Vllgamma_br"])
_FT = "flavio/physics/betadecays/ft.py: "
p("C193", "Neutron decay: positive distribution",
  "For all effective couplings, electron energies, polarisations and directions, the coefficients a, b, A, B, D together describe a decay distribution 1 + b m + a beta e.v + n.(A beta e + B v + D beta e x v) that is not negative; |a|, |b|, |A| <= 1 and |B| <= 1 + b m (|Btilde| <= 1).",
  "all complex couplings V, A, S, T, not all 0, all m_e/E between 0 and 1, all unit vectors",
  "a joint constraint on five functions over continuous couplings and directions",
  [_FT + "xi, a_xi, b_xi, A_xi, B_xi, D_xi, NeutronObservable, Neutron_corr"])
p("C194", "Correlation coefficients of beta decays: bounds and symmetries",
  "For all transitions |a| <= 1 and |b| <= sqrt(1 - (alpha Z)^2); a common complex factor of all couplings has no effect; complex conjugation of the couplings changes the sign of D and R only, which vanish for real couplings; positron emission with CP-conjugate couplings has the same a, b, D and opposite A, B, R; forbidden changes of the spin raise ValueError, and pure Fermi transitions have no correlations with the spin.",
  "all complex couplings, nuclear matrix elements, spins, charges and the sign of the lepton",
  "continuous couplings and matrix elements, all spins",
  [_FT + "xi, a, b, A, B, D, R, la, dl"])
p("C195", "Neutron decay: V - A limit",
  "With real V and A couplings, lambda = A/V, a = (1-l^2)/(1+3l^2), A = -2(l^2+l)/(1+3l^2), B = 2(l^2-l)/(1+3l^2), b = D = R = 0, lambdaAB = lambda, and tilde observables equal those without; in the Standard Model lambda = -g_A/g_V and the universal correction drops out of the couplings; left-handed new physics only rescales them; the pseudoscalar combination of Wilson coefficients has no effect.",
  "all couplings, charges, corrections and coefficients",
  "continuous parameters",
  [_FT + "Neutron_corr", "flavio/physics/betadecays/common.py: wc_eff"])
p("C196", "Ft values and the neutron lifetime",
  "Ft of every superallowed decay is K/(4(|V|^2+|S|^2)) over (1 + b <m/E>) G_F^2 |V_ud|^2/2; it is positive for all couplings; without scalar coupling and nuisance parameters it is the same for all nuclei; and tau_n ln2 f_n (1+R) (1+3 lambda^2) = 2 Ft, independent of V_ud and G_F.",
  "all couplings, parameters and the 14 nuclei",
  "continuous couplings; a relation between observables",
  [_FT + "Ft_superallowed, Neutron_tau, K, nuclei_superallowed"])
p("C197", "Elements and isotopes",
  "symbol and Z of the table of elements are inverse to each other and defined for 0 to 118; the charge of each nucleus of the table is that of its element, and get_daughter returns the isotope with the same mass number and one proton less.",
  "all symbols and numbers, all nuclei of the table",
  "an exhaustive property of tables",
  ["flavio/physics/elements.py: symbol, Z", _FT + "get_daughter, nuclei_superallowed"])
_KL = "flavio/physics/kdecays/kll.py: "
p("C198", "K0 -> l l",
  "The branching ratios of K_L -> l l' and K_S -> l l are not negative for all Wilson coefficients; only the differences of coefficients and their primed partners enter; in the Standard Model the top and charm coefficients enter as xi_t C_t + xi_c C_c, its real part (with the dispersive amplitude) for K_L and its imaginary part for K_S, times m_l^2 sqrt(1 - 4 m_l^2/m_K^2); and the two orders of lepton flavours add.",
  "all masses with an open decay, coefficients, CKM elements and couplings",
  "continuous parameters",
  [_KL + "amplitudes, amplitudes_LD, amplitudes_eff, get_wc, br_kll, br_kll_fct_lsum"])
p("C199", "BR(KS->emu,mue) has a value",
  "The registered observable BR(KS->emu,mue) has a value for all parameters and Wilson coefficients.",
  "all parameters and coefficients",
  "a path no test takes",
  [_KL + "amplitudes_eff, br_kll_fct_lsum"])
_KP = "flavio/physics/kdecays/kpilnu.py: "
p("C200", "K -> pi l nu",
  "The spectrum of K -> pi l nu is zero outside of phase space and not negative; inside it is the sum over neutrino flavours of squared helicity amplitudes integrated over the angle, times lifetime, 1/2 for pi0, (1 + delta)^2 of the isospin breaking form factors (K+) or (1 + delta_EM)^2 of the named parameter (K0); the branching ratio is its integral over phase space.",
  "all q2, masses, form factors, complex coefficients and corrections",
  "continuous inputs and an integral",
  [_KP + "get_ff, get_angularcoeff, _get_angularcoeff, dGdq2, dBRdq2, BR_binned, BR_tot"])
p("C201", "Electromagnetic corrections of K+ decays are applied",
  "BR(K+->pi l nu) depends on the parameter 'K+l3 delta_EM'.",
  "all values of the parameter",
  "needs variation of a parameter that the function should read",
  [_KP + "dBRdq2"])
p("C202", "K -> pi l nu averaged over l",
  "The registered observables BR(KL->pilnu), BR(KS->pilnu), BR(K+->pilnu) and lnC(K->pilnu) (l = 'l') have values.",
  "all parameters and coefficients",
  "no test evaluates them",
  [_KP + "BR_tot, logC, observable registration"])
p("C203", "Ratios in semi-leptonic kaon and hyperon decays",
  "In the Standard Model ln C is the logarithm of f0(m_K^2 - m_pi^2)/f0(0) for every lepton and R_T = 0; scalar and tensor couplings enter as 1 + (m_K^2 - m_pi^2)/(m_l m_s) C_S/C_V and linearly in C_T; g1/f1 of the hyperon is not changed by left-handed new physics and multiplied by (V_L - V_R)/(V_L + V_R) by right-handed.",
  "all masses, form factors and real coefficients with a defined logarithm",
  "continuous parameters",
  [_KP + "logC, RT", "flavio/physics/kdecays/lambdaplnu.py: g1_f1"])
_PP = "flavio/physics/kdecays/kpipi.py: "
p("C204", "K -> pi pi and eps'/eps",
  "The ten matrix elements satisfy the operator identities; elements of operators with u and d cancel for isospin 2 where isospin requires it; every operator has a mirror image (L and R exchanged) with the opposite element, so that the amplitude depends only on differences of coefficients; eps'_NP is linear in the coefficients and zero if all xi_t C* are real; eps'_SM is proportional to Im xi_t and independent of the coefficients z for real V_us* V_ud.",
  "all parameters, CKM elements and coefficients",
  "algebraic identities over continuous parameters; relations between 32 operators",
  [_PP + "Kpipi_matrixelements_SM, Kpipi_matrixelements_NP, Kpipi_amplitudes_SM, Kpipi_amplitudes_NP, epsprime_SM, epsprime_NP"])
p("C205", "Matrix elements of scalar operators and Fierz identities",
  "For isospin 2 the elements of scalar operators of opposite chiralities follow from those of vector operators with one factor: the element of (s d)(d d) from that of the colour-crossed vector operator, and that of the colour-crossed scalar operator from that of the vector operator.",
  "all values of the matrix elements",
  "a relation between two relations",
  [_PP + "Kpipi_matrixelements_NP"])
_LB = "flavio/physics/bdecays/lambdablambdall.py: "
p("C206", "Lambda_b -> Lambda l l",
  "The distribution in the angles of lepton and proton is an incoherent sum over helicities and never negative for |alpha| <= 1; rate, F_L and asymmetries are its moments; F_L and the asymmetries obey the corresponding inequalities at every q2 and in every bin; branching ratios are not negative and vanish outside of phase space; exchanging operators of opposite chirality reverses the hadronic asymmetries, reversing the axial lepton current the leptonic ones; at zero recoil F_L = 1/3 and asymmetries vanish; C7 of the same sign as C9 increases the rate.",
  "all transversity amplitudes, asymmetry parameters, angles, q2, bins, masses, form factors and coefficients",
  "continuous parameters and integrals",
  [_LB + "helicity_amps, transverity_amps, angular_coefficients, prefactor, get_obs, dGdq2, FL_num, AFBl_num, AFBh_num, AFBlh_num, dbrdq2, obs_int, obs_ratio_func, obs_int_ratio_func"])
p("C207", "The full angular distribution of Lambda_b -> Lambda l l",
  "The distribution in all three angles built from the ten angular coefficients is never negative for |alpha| <= 1.",
  "all transversity amplitudes, asymmetry parameters and angles",
  "a positivity property over continuous amplitudes and angles",
  [_LB + "angular_coefficients"])
_LS = "flavio/physics/bdecays/lambdablambda1520ll.py: "
p("C208", "Lambda_b -> Lambda(1520) l l",
  "The distribution in the three angles is an incoherent sum over helicities and never negative; rate, F_L and asymmetries are its moments averaged over the decay and its conjugate, so that hadronic asymmetries vanish; they obey the corresponding inequalities at every q2 and in every bin; without CP-violating phases the CP asymmetries vanish; at zero recoil F_L and the lepton asymmetry vanish; C7 of the same sign as C9 increases the rate.",
  "all transversity amplitudes, angles, q2, bins, masses, form factors and coefficients",
  "continuous parameters and integrals",
  [_LS + "helicity_amps, transversity_amps, angular_coefficients, prefactor, get_obs, dGdq2, S, A, FL_num, AFBl_num, AFBh, AFBlh, obs_int, obs_ratio_func, obs_int_ratio_func"])

_PP = "flavio/physics/dileptons/"
p("C209", "Neutral Drell-Yan: pp -> l l",
  "The partonic cross section exists only for quarks of the same charge (otherwise ValueError), is the integral over the angle of the squared helicity amplitudes, in which scalar and tensor of the same helicity interfere only in the angle, and is never negative. Cross sections in bins of the dilepton mass are non-negative and add up for adjacent bins; the ratio to the Standard Model is 1 without new physics and at least 1 if only scalar and tensor operators are added; in the Standard Model all leptons have the same cross section, flavour is diagonal and quarks of the same charge are alike.",
  "all energies, bins, leptons, quarks, coefficients and continuous non-negative parton luminosities",
  "continuous parameters, integrals and arbitrary luminosities",
  [_PP + "ppll.py: F_qqll_SM, wceff_qqll_sm, wceff_qqll_np, sigma_qqll_partonic, dsigma_dtau_qqll, sigma_qqll_int, R_sigma_qqll_int"])
p("C210", "Charged Drell-Yan: pp -> l nu",
  "The cross section in a bin of the transverse mass is the integral of the squared helicity amplitudes over the angles of the lepton allowed by the bin, is never negative and adds up for adjacent bins; a bin wide enough gives the closed total; in the Standard Model it is the square of the CKM element times the W propagator, for the neutrino of the flavour of the lepton only and the same for all leptons.",
  "all energies, transverse-mass ranges, quarks, leptons and coefficients",
  "continuous parameters and integrals",
  [_PP + "pplnu.py: F_qqlnu_SM, wceff_qqlnu_sm, dsigma_dtau_qqlnu_partial"])
