# Source of properties.jsonl, part A.  Run tools/gen.py to regenerate the file.
P = []
def p(i, title, statement, quantifier, why, anchors):
    P.append(dict(id=i, title=title, statement=statement, quantifier=quantifier,
                  why_tests_cant=why, anchors=anchors))

# ---- registries ---------------------------------------------------------
p("C01", "Named registries behave like an insertion-ordered finite map",
  "After any sequence of creating named objects, deleting by name, clearing the registry and looking names up, C[name] returns exactly the object most recently created under that name (if it was not deleted/cleared since) and otherwise raises KeyError; a failing lookup or delete changes nothing; iteration order is the order of first creation since the name was last absent.",
  "all finite sequences of create/delete/clear/lookup operations, all names",
  "the claim is over unboundedly long operation histories; unit tests exercise two or three operations",
  ["flavio/classes.py: NamedInstanceClass.__init__/get_instance/del_instance/clear_all", "flavio/classes.py: NamedInstanceMetaclass"])
p("C02", "Registries of different classes do not interfere",
  "Among the classes flavio provides (all deriving directly from the common base), creating, deleting or clearing named objects of one class never changes what is registered under another class, whatever the order in which classes are first used.",
  "all histories of operations over all classes of a class hierarchy",
  "depends on which class happened to be instantiated first, a history that tests fix once",
  ["flavio/classes.py: NamedInstanceClass.__init__ (hasattr check on the class)", "flavio/classes.py: clear_all"])
# ---- constraints --------------------------------------------------------
p("C03", "The latest constraint on a parameter wins",
  "After any sequence of adding and removing constraints, a parameter is constrained iff its last mention was an addition, it is then constrained by the distribution of that addition at its position in that addition's parameter list, and all other parameters are unaffected.",
  "all histories of add_constraint/set_constraint/remove_constraint, any parameter lists, correlated or not",
  "overlapping multivariate and univariate constraints can be layered in infinitely many orders",
  ["flavio/classes.py: Constraints.add_constraint, set_constraint, remove_constraint, all_parameters"])
p("C04", "Central values come from the current constraint and the right component",
  "get_central_all has exactly the constrained parameters as keys, and the value of each is the component of the central value vector of its current distribution that belongs to it; get_central of an unconstrained parameter raises.",
  "all reachable constraint sets and all parameters",
  "position bookkeeping for multivariate distributions must hold for every list and every overwrite order",
  ["flavio/classes.py: Constraints.get_central, get_central_all"])
p("C05", "Random parameter points respect correlations",
  "In one call of get_random_all every distribution object is sampled exactly once, and every parameter gets its own component of the sample of its current distribution, so parameters sharing a distribution always come from the same joint draw; with size=N row i of all parameters of one distribution is the same draw i.",
  "all reachable constraint sets, all outcomes of the random generator, all N",
  "a test can only see samples and estimate correlations statistically",
  ["flavio/classes.py: Constraints.get_random_all"])
p("C06", "Log-probabilities: every live constraint contributes once, with the right components excluded",
  "get_logprobability_all returns one entry per distribution that still constrains at least one non-excluded parameter, evaluated at the values of exactly those parameters, with all other (overridden or excluded) components removed from the distribution; excluded and overridden parameters never influence the result.",
  "all constraint sets reachable by ordinary use (each addition brings its own distribution object and lists each name once), all value dictionaries, all sets of excluded parameters",
  "interaction of overrides, multivariate distributions and exclusion has unboundedly many configurations",
  ["flavio/classes.py: Constraints.get_logprobability_all"])
p("C07", "Single-parameter log-probability agrees with the full one",
  "get_logprobability_single(p, v) equals the entry for p's distribution that get_logprobability_all gives when every other parameter is excluded.",
  "all constraint sets reachable by ordinary use (each addition brings its own distribution object and lists each name once), all parameters and values",
  "two independent code paths must agree on every constraint layout",
  ["flavio/classes.py: Constraints.get_logprobability_single, get_logprobability_all"])
p("C08", "Saving and reloading constraints preserves them",
  "from_yaml_dict(get_yaml_dict()) gives a constraint set with the same constrained parameters, each with an equal distribution at the same position, for every reachable constraint set.",
  "all histories of additions and removals before saving",
  "round trips through the serialised form must hold after any history, including removals",
  ["flavio/classes.py: Constraints.get_yaml_dict, from_yaml_dict, remove_constraint"])
p("C09", "Setting a constraint either fully succeeds or changes nothing",
  "set_constraint with a string or dictionary that is rejected (unparsable, both or neither given) leaves every existing constraint as it was; when accepted it changes only the given parameter.",
  "all constraint sets, parameters, strings and dictionaries",
  "the space of malformed inputs is infinite",
  ["flavio/classes.py: Constraints.set_constraint"])
# ---- observables --------------------------------------------------------
p("C10", "Observable representations convert losslessly",
  "argument_format turns the string, tuple, list and dict forms of an observable into each other without loss: converting to dict and back to tuple (and vice versa) returns the original, numbers of arguments are checked, and an unknown name raises.",
  "all registered observables with any argument lists, all argument values, all input and output formats",
  "must hold for every observable signature and every value",
  ["flavio/classes.py: Observable.argument_format"])
p("C11", "The observable taxonomy contains exactly the added paths",
  "After any sequence of add_taxonomy calls, taxonomy_dict contains a path of categories iff it is a prefix of an added category path extended by the observable's name.",
  "all sequences of (observable, taxonomy string)",
  "trees of unbounded depth and branching",
  ["flavio/classes.py: Observable.add_taxonomy, taxonomy_dict, tree, dicts"])
p("C12", "Derived observables compute the given function of their inputs",
  "Observable.from_function creates an observable whose prediction, for every parameter point, Wilson coefficients and arguments, is the function applied to the predictions of the inputs in order; if any input is missing, has no prediction or different arguments, it raises and creates nothing (the new name not being one of the inputs).",
  "all registries, lists of inputs, functions, parameter points and arguments",
  "quantifies over all functions and all evaluation points",
  ["flavio/classes.py: Observable.from_function", "flavio/classes.py: Prediction"])
p("C13", "Measurements of an observable are found exactly",
  "Observable.get_measurements returns exactly the names of the registered measurements that currently constrain the observable (with any arguments), each once, in registration order.",
  "all registries of measurements and all constraint histories",
  "unbounded registries and constraint histories",
  ["flavio/classes.py: Observable.get_measurements"])
p("C14", "Auxiliary quantities follow the configured implementation",
  "The prediction of an auxiliary quantity is that of the implementation currently named in the configuration; a missing configuration entry or unregistered implementation raises; changing the configuration for one quantity affects no other.",
  "all configurations, registries and change histories",
  "state is global and mutable; tests fix one configuration",
  ["flavio/classes.py: AuxiliaryQuantity.get_implementation", "flavio/classes.py: Implementation"])
p("C15", "A rejected Implementation leaves no trace",
  "If constructing an Implementation raises because its quantity does not exist, the registry of implementations is unchanged.",
  "all registries and names",
  "crash-point property: requires inspecting state after every failing constructor call",
  ["flavio/classes.py: Implementation.__init__"])
p("C16", "Implementation.show_all lists every implementation",
  "show_all maps every quantity to all of its registered implementations.",
  "all registries of implementations",
  "tests use one implementation per quantity",
  ["flavio/classes.py: Implementation.show_all"])
# ---- likelihoods --------------------------------------------------------
p("C17", "A measurement likelihood uses exactly the selected measurements",
  "The measurements entering a MeasurementLikelihood are exactly the registered ones that constrain at least one of its observables, that are not pseudo-measurements (unless requested), and that are not excluded / are included (at most one of the two lists given); construction succeeds exactly if these measurements constrain every observable.",
  "all registries, observable lists, include and exclude lists",
  "selection logic over unbounded registries and all combinations of include/exclude/None/empty",
  ["flavio/statistics/likelihood.py: MeasurementLikelihood.get_measurements, __init__"])
p("C18", "The log-likelihood is the sum over measurements of the constraints on its observables",
  "log_likelihood_pred equals the sum, over selected measurements and their constraints, of the log-probability of the predictions of the observables that are in the likelihood and not excluded; predictions of any other observable never influence it.",
  "all measurement registries, prediction dictionaries and exclusion lists",
  "set algebra with overlapping measurements, exclusion and correlated constraints has unboundedly many cases",
  ["flavio/statistics/likelihood.py: MeasurementLikelihood.log_likelihood_pred", "flavio/classes.py: Constraints.get_logprobability_all"])
p("C19", "The number of observations counts (measurement, observable) pairs",
  "get_number_observations is the number of pairs of a selected measurement and a non-excluded observable of the likelihood that it constrains.",
  "all registries, observable lists and exclusion lists",
  "counting claim over unbounded registries",
  ["flavio/statistics/likelihood.py: MeasurementLikelihood.get_number_observations"])
p("C20", "Cached predictions are the predictions",
  "Whatever sequence of calls was made before, get_predictions_par(par, wc) returns the predictions at the parameters and Wilson coefficients of this call.",
  "all call histories and all parameter dictionaries",
  "a stale cache only shows for particular successive pairs of arguments",
  ["flavio/statistics/likelihood.py: MeasurementLikelihood.get_predictions_par"])
p("C21", "Parameter likelihood: only the listed parameters contribute",
  "ParameterLikelihood.log_likelihood_par is the sum of the log-probabilities of the constraints restricted to the listed parameters, independent of the values of all other parameters; get_central lists their central values in order; the total likelihood is the sum of parameter and experimental parts.",
  "all parameter constraint sets, parameter lists and values",
  "independence from other values is a universally quantified claim",
  ["flavio/statistics/likelihood.py: ParameterLikelihood, Likelihood"])
p("C22", "Loading a covariance reorders it to the requested observables",
  "After load_dict, entry (i, j) of the covariance is the entry of the loaded matrix for observables i and j of this object, whatever the order or additional observables in the file; missing observables raise; saving and loading is the identity.",
  "all observable lists, supersets, orders and matrices of any size",
  "all permutations of all sizes",
  ["flavio/statistics/likelihood.py: SMCovariance.load_dict/save/load, MeasurementCovariance.load_dict"])
p("C23", "Covariance caching: recompute exactly when forced or absent",
  "get returns the cached covariance iff one exists and force is False, otherwise the freshly computed one, which is then cached; load replaces the cache; save requires a cached value.",
  "all sequences of get/load/save calls with any arguments",
  "state-machine claim over call histories",
  ["flavio/statistics/likelihood.py: SMCovariance.get/save/load, MeasurementCovariance.get"])
p("C24", "Pseudo-measurements never leak into other likelihoods",
  "Creating FastLikelihoods and making their measurements in any order never changes the measurements used by any MeasurementLikelihood that did not ask for pseudo-measurements, and each FastLikelihood evaluates exactly its own pseudo-measurement.",
  "all interleavings of creating and using FastLikelihood instances",
  "interleavings over a shared global registry",
  ["flavio/statistics/likelihood.py: FastLikelihood.make_measurement", "flavio/statistics/likelihood.py: MeasurementLikelihood.get_measurements"])
p("C25", "The experimental average over measurements is the product of Gaussians",
  "For Gaussian measurements the weighted mean and covariance computed by MeasurementCovariance define, up to a constant, the product of the individual likelihoods, independent of the order of the measurements.",
  "all numbers of measurements, all means and positive variances (any dimension)",
  "algebraic identity over the reals",
  ["flavio/statistics/likelihood.py: MeasurementCovariance.compute"])
