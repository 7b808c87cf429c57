# Formal model of flav-io/flavio in Rocq (Coq 8.16.1)

210 properties, 621 property theorems; 135 properties proved in full, 75 partial (most of
these are properties a user would rely on and which the code violates: a theorem `..._refuted`
proves the violation for a concrete witness or for a whole class of inputs, and the part that does
hold is proved beside it).

(This file is assembled by `tools/design.py` from `tools/design_text.md`, `MANIFEST.json` and the
parsed `Print Assumptions` output; `properties.jsonl` by `tools/gen.py`, `MANIFEST.json` by
`tools/manifest.py`.)

## 1. Method and layout

Shallow Gallina models that mirror the Python functions branch by branch; a Python exception is a
value (`Err exc`); mutable state is threaded explicitly; histories are lists of operations and the
theorems about them are by induction over the list.  For every topic `T` there are in
`rocq/theories/`:

* `T_Model.v`   – definitions only; every definition cites the `/repo` file and lines it models and
  states its simplifications,
* `T_Spec.v`    – the small independent specification the theorems are stated against (it does not
  use the helper functions of the model; where it is tiny it is part of `T_Props.v`),
* `T_Proofs*.v` – lemmas and proofs,
* `T_Props.v`   – the property theorems, each followed by `Print Assumptions`, and `Example`s showing
  that a concrete, non-trivial case meets the hypotheses.

`Base.v`/`BaseLemmas.v` hold the Python run-time vocabulary shared by all (results, insertion-ordered
dictionaries, boolean equality); `Regex.v` is a backtracking regular-expression engine with Python's
priority order; `RealField.v` makes Coq's reals a mathcomp field for the matrix models.

Naming: `Cxx_...` is a theorem for property Cxx.  `..._partial` = part of the property (what is missing
is said in the comment and in MANIFEST.json); `..._refuted` = the full statement is false of the code
as written, the theorem proves it (a finding, §5).

Physics: floats are idealised as exact reals (`R`) or complex numbers (Coquelicot's `C`).  The
formulae of the code are transcribed term by term; the specification states what the quantity *is*
(the integral of an angular distribution, the time integral of oscillating amplitudes, the contraction
of currents, a marginal density, ...), and the theorem says that the code's closed formula equals it,
for all parameters.

## 2. Plan per unit

| unit | properties | what is modelled | how it is proved |
|---|---|---|---|
| Registry | C01, C02, C58 | `classes.py` NamedInstance(Class/MetaClass): `OrderedDict` as association list, ops create/del/clear/get, attribute inheritance of `instances` | refinement of an abstract history function, induction over operation lists |
| Constraints, ConstraintsIO | C03–C09, C50, C59–C62 | `classes.py` Constraints/ParameterConstraints: state `(_constraints, _parameters)`, distributions as objects with identity, yaml/dict forms | induction over histories; refinement to a "last mention" specification; index algebra |
| Observables | C10–C16, C63–C66 | Observable/Prediction/Measurement/AuxiliaryQuantity/Implementation, argument formats, taxonomy tree | list/dict algebra, tree induction |
| Likelihood | C17–C21, C67–C70 | `statistics/likelihood.py` MeasurementLikelihood, ParameterLikelihood, Likelihood with prediction cache | set algebra, sums over measurements, cache state machine with an explicit hash |
| Covariance, Average | C22–C25, C71 | SMCovariance/MeasurementCovariance/FastLikelihood, weighted averages | index lemmas, state machine, field identities, limits |
| InstanceIO | C49, C51 | `io/instanceio.py`, dump/load of likelihoods, voluptuous schemas | list induction, schema application |
| Citations | C30, C31 | `citations.py` | history refinement; nested-scope program induction |
| Regex, Parsing | C26–C29, C72 | `_parse_errors.py` with its regular expressions as data run by a verified-by-use engine | matching lemmas for all generated strings, "must contain" lemmas for dispatch |
| Functions | C32–C36, C73–C75 | `functions.py`: AwareDict, sensitivity, error budget, SM covariance, threads | predictions as programs reading a dictionary; induction over programs |
| Dist, DistNames | C37–C41, C44, C76–C83 | `statistics/probability.py`, univariate classes, names, dict forms, counting statistics | real analysis (integrals with Coquelicot), case analysis over classes |
| Numerical | C45, C84–C89 | numerical distributions, convolution and combination on grids | sums over tables, piecewise linear integrals |
| MVN | C42, C43, C107–C111 | multivariate normal: constructor, scaling, completion, reduction, combination, convolution | matrices over R in mathcomp: marginalisation by induction on the number of variables and completing the square, congruence, Schur complements |
| Loading | C90–C97, C46 | `parameters.py`, `measurements.py`: yaml forms, correlation matrices, PDG table | list/dict refinement; exact rationals with numpy's tolerance |
| Running | C47, C48, C98–C101 | `physics/running/running.py`: thresholds, caches, alpha_e, transverse decay constants | case analysis over threshold order, state machine for the cache, real analysis |
| Basics | C52–C54, C57, C102–C106 | `ckm.py`, `common.py`, `elements.py`, `math/optimize.py`, `statistics/functions.py` | complex algebra, trigonometry |
| Mixing | C55, C112–C114 | `mesonmixing/*` | complex algebra, continuity by l'Hôpital-free estimates |
| Angular, AngularFF | C56, C115–C123 | `bdecays/angular.py`, angular observables | trigonometric integrals (Coquelicot), quadratic-form inequalities; Lorentz contractions for AngularFF |
| Decays | C124–C130 | `bvlnu.py`, `bplnu.py`, `math/integrate.py` | Riemann integrals over bins with clipping to the physical region |
| DecaysNC, DecaysP | C131–C134 | `bvll/observables.py`, `bpll.py` | linear functionals of angular coefficients, integrals over bins |
| DecaysBs | C135, C136 | `bvll/observables_bs.py` | time integrals of oscillating amplitudes, limits at infinity |
| EFT | C137–C141 | `eft.py` WilsonCoefficients: sectors, name translation, options and caches shared with `wilson` | dictionary algebra; state machine over histories of predictions and owner calls |
| Leptonic | C142–C147 | `bdecays/bll.py`, `blnu.py`, `dlnu.py`, `klnu.py`, `taudecays/{taupnu,taulnunu,common,taulgamma}.py` | two-body phase space and spin sums; time integrals of oscillating amplitudes; helicity amplitudes; monotonicity of the phase-space function |
| FormFactors | C148–C158 | `bdecays/formfactors/{common,hqet}.py`, `b_p/*`, `b_v/*`, `lambdab_12/*` (not the parameter loaders), `ddecays/formfactors/*`, `kdecays/formfactors.py` | exact real algebra on the z expansion; kinematic relations at q²=0, q²max and threshold for all coefficients; dictionaries as state |
| EW, Higgs | C159–C168 | `zdecays/*`, `wdecays/*`, `higgs/*`, `scattering/ee_ww.py` (of `ee_WW_diff` two bins), `neutrinos/trident.py`, `mdms/al.py` | couplings as complex numbers, coefficients as a function of an inductive type of names; algebra under the tree-level relation s²c²√2 GF mZ² = πα; invariance under field redefinitions; case analysis over fermions |
| LFV, EDM | C169–C174 | `taudecays/{tau3l,tauvl,taupl}.py`, `mudecays/*`, `edms/*` | completing squares (sharp positivity bound); parity as a table of exchanged coefficients; explicit amplitudes from quark content; countermodels for C172, C174 |
| Rare decays | C178–C185 | `bdecays/{bvnunu,bpnunu,bpll_lfv,bvgamma}.py`, `bvll/lfv.py`, `kdecays/kpinunu.py`, `matrixelements.py` | rates as sums of squares of polarisation amplitudes (from the angular coefficients); integrals by continuity on the phase space; Cauchy–Schwarz for time-dependent asymmetries; mean value theorem for limits of loop functions; countermodels for C181, C183 |
| Wilson coefficients | C175–C177, C186 | `bdecays/wilsoncoefficients.py`, `bdecays/matrixelements.py` | dictionaries as association lists with the generated names (nine sectors by computation); interpolation as segments of a line; linearity; loop functions of C185 |
| Quarkonium | C187–C192 | `quarkonium/{Vll,Pll,Sll,Vllgamma}.py` | amplitude squared as a sum of non-negative quadratic forms; signs of functions with logarithms by the mean value theorem; countermodels for C189, C190, C192 |
| Beta decays | C193–C197 | `betadecays/{common,ft}.py`, `elements.py` | distribution of polarised neutrons as a sum over electron helicities of positive Hermitian forms (Gram determinant); symmetries by algebra; tables by computation |
| Kaon decays | C198–C205 | `kdecays/{kll,kpilnu,lambdaplnu,kpipi}.py` | K → π l ν reduced to the spectrum of C129 by a scaling lemma for the helicity amplitudes; matrix elements as an association list, mirror images by a permutation of names; closed formulas by field |
| Baryon decays | C206–C208 | `bdecays/{lambdablambdall,lambdablambdall_subleading (as an arbitrary addition to the amplitudes),lambdablambda1520ll}.py` | distributions as sums of squares of helicity amplitudes; integrals of polynomials; Cauchy–Schwarz; countermodel for C207 |
| Dileptons | C209–C210 | `dileptons/{ppll,pplnu}.py` | parton luminosities as arbitrary non-negative continuous functions; partonic cross sections as integrals of squared helicity amplitudes; additivity of integrals in the bins |

## 3. Trusted base

* Coq 8.16.1 kernel (`coqc`; `vcheck` also runs `coqchk`).  No axioms, `Admitted`, `Parameter`,
  functors, module types, plugins or disabled checks in `rocq/theories/`.
* Libraries: the standard library, mathcomp (matrices), Coquelicot (integrals, limits, complex
  numbers).  Only standard-library axioms are used, listed in §6 per theorem.
* Fidelity of the reading of the source: the code cannot be run here.
* Idealisations: floats as exact rationals (`Qc`), reals (`R`) or an abstract field: no rounding,
  overflow or NaN (NaN is only discussed where the code accepts the strings 'nan'/'inf');
  dictionaries as insertion-ordered association lists; object identity as a number; hash functions
  explicit.
* Dependencies are parameters (section variables that appear as hypotheses in the statements): scipy's
  `quad`, `odeint`, `minimize`, `chi2`, random number generators and density estimators; numpy array
  semantics as used; the packages `wilson`/`wcxf` (validation, bases, running and matching), yaml.
  Where a theorem needs a property of such a dependency, it is an explicit hypothesis, and an
  `Example` shows that it can be met.  `quad` is idealised as the exact Riemann integral.

## 4. Modelled / not modelled

Modelled: see §2 and the citations at each definition.  In particular all of `classes.py`,
`citations.py`, `functions.py`, `_parse_errors.py`, `parameters.py`, `measurements.py`,
`statistics/likelihood.py`, `statistics/functions.py`, `io/instanceio.py`, `math/integrate.py`,
`math/optimize.py`, `math/functions.py` (normalisations), `physics/eft.py`, `physics/ckm.py`,
`physics/common.py`, `physics/elements.py`, `physics/running/running.py` (control flow),
`physics/mesonmixing/`, `physics/bdecays/angular.py`, and the observables of the decays listed in §2;
`statistics/probability.py` except: random sampling beyond what is stated, `KernelDensityEstimate`
bandwidth selection, the Gamma special functions (oracles).

Not modelled (and no property claims anything about them): the loaders and fitted constants of
form-factor parametrisations, the HQET matching functions `CV1`…`CT3` (arbitrary functions in the model), QCD factorisation (`bvll/qcdf*.py`), inclusive decays (`bxll*`,
`bxgamma`, `bxlnu`), `lambdablambdagamma`, `dileptons/partondist` (luminosities are parameters), `scattering`,
`zdecays/smeftew`; the numerical content of data files (`data/*.yml`, `*.npy`), except that keys are
looked up in them; plotting with matplotlib; SLHA reading; the numerical accuracy of integration and
ODE solving; pickling and multiprocessing (parallel evaluation is modelled as an order-preserving map).

Properties that cannot be expressed: none was dropped; statistical statements about pseudo-random
samples are stated about the distribution handed to the generator, not about the samples.

## 5. Findings

Each of these is visible in the code as read; those with a property id are proved.

**Registries, constraints, observables**
* C58 a subclass of an already used class shares its registry.  C59/C60 one distribution object for two
  parameters counts once; a name listed twice in one addition contributes nothing.
* C08/C50/C62 saving and reloading resurrects removed constraints, loses change-and-change-back, and
  cannot read argument-less objects with public attributes.
* C15/C16/C63–C66 rejected implementations stay registered; `show_all` drops implementations; 'list'
  format splits names into characters; `from_function` over the own name loses the prediction; the
  configured implementation need not belong to the quantity; surplus dictionary arguments are ignored.
* Not claimed: the default citation key `Straub:2018kue` is missing in `data/citations.yml` (KeyError
  inside `collect()`); `string_to_class` evaluates its argument; `get_1d_errors` returns None for
  unknown parameters; list-form values for observables without arguments give TypeError.

**Likelihoods and covariances**
* C20/C68 the prediction cache compares only hashes of the arguments (CPython: hash(-1) = hash(-2)).
* C24 two FastLikelihoods of one name replace each other's pseudo-measurement.  C67 an empty exclude
  list makes the include list ignored.  C69 the default `parameters=None` raises TypeError.  C71.
* C51 `Likelihood.dump` always raises; `include_pseudo_measurements` is lost; empty lists turn into
  "all".
* C73–C75 `par.get`/`items` are not tracked; copying an AwareDict forgets changes; with threads > 1 a
  positional value silently wins; `sm_covariance` mutates the caller's dictionary.
* Not claimed: misspelt names in `par_vary` are ignored and a string other than 'all' has substring
  semantics; `combine_measurements` ignores extra keyword arguments; `conjugate_par` returns a plain
  dict so keys read only through it are not recorded; `bsz.py` and `lambdab_12/sse.py` mutate the
  caller's parameter dictionary.

**Strings and files**
* C28 `'1.0 - 0.2'`, `'1.36 -0.1 +0.2'` → IndexError; a number written with U+2212 → AttributeError.
  C72 `'1.36 +0.3 -0.1 - 0.5'` drops 0.5.  Not claimed: `'1.0 */ 1.5 '` and `'(1.67 */ 1.5) * 1e-3'` are
  rejected; 'nan'/'inf' are accepted as delta distributions.
* C92/C94/C97 completed correlation matrices: docstring example rejected, non-symmetric entries added;
  failed loads leave bogus measurements; the two sides of lifetime errors are exchanged.

**Distributions**
* C79, C80, C82, C83, C84, C89, C91, C108, C110, C111 (see MANIFEST notes).
* Not claimed: negative standard deviations of a multivariate normal are accepted and flip the sign of
  correlations; a correlation matrix with diagonal ≠ 1 is accepted; `exclude=0` means "nothing excluded";
  `GeneralGammaDistributionPositive` cannot be constructed directly (AttributeError);
  `GammaDistributionPositive.get_random(None)` indexes a scalar; `MultivariateNumericalDistribution.get_dict(arraytolist=True)`
  mutates the object and `central_value=None` loses the support; `GammaCountingProcess(counts_background=2, counts_signal=-5)`
  is accepted; `DiscreteUniform(5, 1)` is accepted; HPD errors of numerical distributions compare the
  density at n sigma on one side with 1 sigma on the other.

**Running and effective theory**
* C48 stale cache after a change of thresholds; C98 `nf_out` ignored; C99 cached arrays are shared.
* C139 `WilsonCoefficients.from_wilson` shares options and cache with its source: stale results, and a
  prediction changes the owner's CKM options.  C140 an invalid `nf_out` is accepted in the SM; keys
  follow `eft`, not `nf_out`.  C141 `get_initial_wcxf` is not in the flavio basis.
* C144 D+ and Ds → l ν with scalar operators use m_b + m_c as quark masses.  C146 BR(τ → l ν ν) can be negative:
  the interference term lacks m_l/m_τ.  Not claimed: `GammaFvf` with a massless vector and non-zero vector couplings
  can be negative (only called with tensor couplings then); `GFeff` uses the measured, not the effective, constant.
* Not claimed: `get_wilson` uses the removed `np.complex`; the error message for `nf_out` lacks the
  value; `wctot_dict` raises KeyError for WCxf sector names that `get_wc` accepts; `WilsonCoefficients`
  objects are returned as they are, so the CKM parameters of `par` are not used in running.

**Physics**
* C102 `conjugate_par` is wrong for Wolfenstein and beta–gamma parametrisations.  C104 `minimize_robust`
  never continues from end points.  C106 pulls of negative chi-squared differences.
* C114 documented mixing conventions (sign of DeltaM, phi12, x12Im).  Not claimed: `a_fs`/`phi12` of K0
  divide by zero; new physics in Gamma12 is ignored; `bag_msbar2rgi` has an unbound variable for D0;
  the box function raises ZeroDivisionError at x = 1; `a_fs` can exceed 1 for |Gamma12| > |M12|.
* C115 `FLhat` = −S_1c is never positive; `AFB` omits J6c (wrong with scalar operators).  C123 the
  B → P tensor amplitude lacks a factor √2 (wrong-helicity neutrinos).  C128 observables registered
  for lep='l' raise KeyError.  C133 the published ACP(B → V l l) is half the CP asymmetry.
* Not claimed: `FL` can be negative with tensor amplitudes (not reachable through `get_wceff`);
  Bs → K*0 ll is treated with interference although the final state is flavour specific; only the phase
  of q/p is used for Bs; `bpll_obs` tests `lep == lep`; `FL_diff` is 0/0 at q2 = m_l²; `Itot_norm` has no
  zero guard; `h_tilde` does not exchange tensor amplitudes; `nintegrate_pole` ignores epsrel for
  q2min > 0.1.
* C150 plain BCL form factors (B → P BCL3/BCL4, D → P BCL2): wrong sign of the completing coefficient, f+(0) ≠ f0(0).
  C153 CLNexp-IW: T23 at q2 = 0 lacks 1 + a_T23.  C154 B → V BSZ and Λb SSE overwrite entries of the caller's
  parameter dictionary.  C156 Λb → Λ SSE3 (the default) uses two coefficients.  C157 registered implementations that
  always raise KeyError.  Not claimed: CLNexp takes the D*0 mass, its Isgur–Wise relations the D*+ mass.
- C162: `d_gWl`, `d_gWq` add the flavour-universal shift of the W coupling also for off-diagonal flavour indices, so universal new
  physics predicts W → e ν_μ (and shifts W → u s etc. independently of V_us).
- C163: `GammaW_NP` uses Re(g·δg) where Re(g*·δg) is meant; the W → u b width depends on the phase convention of the CKM matrix.
- C165, C167: linearised Higgs cross sections can be negative; the differential ee → WW cross section is not normalised to the SM.
- smeftew.py: the conjugation for i > j is dead code because the indices are sorted before; widths are not affected (C160_fcnc). The linear
  contribution of h → cc is left out of the total Higgs width (C164_width).
- C172: `edms/common.py: get_m` exchanges the masses of the u and d quarks. C174: `paraedm.py` has Z=3, N=4 for thallium and Z=N=1 for the molecules (and
  the TeX name of HfF for all molecules).
- C181: the charm contribution to K → π ν ν is multiplied by α_e(scale)², not α_e(m_Z)². C183: B⁰ → ρ⁰ l l' lacks the factor 1/2. Not claimed: binned FL of
  B → ρ⁰ ν ν divides a numerator without by a denominator with the factor 1/2; for q² > (m_B + m_M)² (unphysical) the ν ν rates are not 0.
- C189, C190: `quarkonium/Pll.py` `getS_lfv` combines the vector coefficients as m1 X + m2 Y (instead of m1 X − m2 Y), the same for both helicities and charge
  combinations. C192: `Vllgamma.py` `Fhat_P` lacks 1/12 (BR < 0 possible). Not claimed: combined observables of `Pll`, `Sll`, `Vllgamma` pass the couplings
  `ij`, `ji` of gluons or photons in the same order for both charge combinations.
* C199 `BR(KS->emu,mue)` raises UnboundLocalError for all inputs.  C201 the parameters 'K+e3 delta_EM', 'K+mu3 delta_EM' have no effect.  C202 the observables K → π l ν with
  l = 'l' raise KeyError ('m_l').  C205 signs of two matrix elements of scalar operators in `Kpipi_matrixelements_NP` are not consistent with one Fierz factor.
* C207 `lambdablambdall.py` lines 92–101: K4sc and K4s are imaginary parts, like K3sc and K3s; with these the angular distribution takes negative values (arXiv:1410.2115 has real parts).

## 6. Assumptions

`Print Assumptions` of each property theorem, in the table of §7: S = `ClassicalDedekindReals.sig_not_dec`,
F = `ClassicalDedekindReals.sig_forall_dec`, E = `FunctionalExtensionality.functional_extensionality_dep`,
C = `Classical_Prop.classic`, D = `ClassicalEpsilon.constructive_indefinite_description`; "–" = closed
under the global context (148 theorems).  S, F, E are how the standard library constructs the
real numbers; C enters through Coquelicot/real-analysis lemmas, D through the choice structure that
mathcomp demands of a field.  All are axioms of Coq's standard library; none is mine.

`vcheck` (coqchk) lists more names under `library_axioms`: fields of *sealed modules* of the standard
library (`RbaseSymbolsImpl`, `RinvImpl`, `ssrunder`) and of mathcomp (`bigop.BigOp`, `finset.SetDef`,
`fintype.*`, `perm.PermDef`, ...), which coqchk reports because the modules are opaque; they have
definitions there, are not axioms, and do not occur in any `Print Assumptions`.

## 7. Theorems

| id | property | status | unit | theorems [assumptions] |
|---|---|---|---|---|
| C01 | Named registries behave like an insertion-ordered finite map | proved | Registry | `lookup_is_latest_created` [–], `iteration_order_is_birth_order` [–], `failing_operation_changes_nothing` [–], `delete_raises_iff_absent` [–], `find_lists_matching_names` [–] |
| C02 | Registries of different classes do not interfere | proved | Registry | `registries_do_not_interfere` [–] |
| C03 | The latest constraint on a parameter wins | proved | Constraints | `latest_constraint_wins` [–], `all_parameters_exact` [–], `listing_order` [–], `parameter_objects_registered` [–] |
| C04 | Central values come from the current constraint and the right component | proved | Constraints | `central_values` [–], `unconstrained_raises` [–] |
| C05 | Random parameter points respect correlations | proved | Constraints | `random_values_joint` [–] |
| C06 | Log-probabilities: every live constraint contributes once, with the right components excluded | proved | Constraints | `log_probability_is_sum_of_live_contributions` [–], `missing_value_raises` [–], `each_distribution_once` [–], `only_live_values_matter` [–] |
| C07 | Single-parameter log-probability agrees with the full one | proved | Constraints | `single_agrees_with_all` [–] |
| C08 | Saving and reloading constraints preserves them | partial | Constraints | `roundtrip_up_to_removals_partial` [–], `constraints_in_force_survive_partial` [–], `roundtrip_measurement_partial` [–], `roundtrip_after_removal_refuted` [–] |
| C09 | Setting a constraint either fully succeeds or changes nothing | proved | Constraints | `set_constraint_all_or_nothing` [–], `both_or_neither_rejected` [–] |
| C10 | Observable representations convert losslessly | proved | Observables | `tuple_to_dict_and_back` [–], `dict_to_tuple_and_back` [–], `string_form` [–], `unknown_name_raises` [–], `wrong_number_raises` [–], `missing_arguments_raise` [–] |
| C11 | The observable taxonomy contains exactly the added paths | proved | Observables | `taxonomy_exact` [–], `categories_of_string` [–] |
| C12 | Derived observables compute the given function of their inputs | proved | Observables | `from_function_composes` [–], `bad_inputs_rejected` [–], `failure_creates_nothing` [–], `definition_is_stable` [–] |
| C13 | Measurements of an observable are found exactly | proved | Observables | `measurements_found_exactly` [–] |
| C14 | Auxiliary quantities follow the configured implementation | proved | Observables | `configured_implementation_is_used` [–], `other_configuration_irrelevant` [–] |
| C15 | A rejected Implementation leaves no trace | partial | Observables | `rejected_implementation_refuted` [–] |
| C16 | Implementation.show_all lists every implementation | partial | Observables | `show_all_last_partial` [–], `show_all_refuted` [–] |
| C17 | A measurement likelihood uses exactly the selected measurements | proved | Likelihood | `selected_measurements` [–], `registration_order` [–], `constructor_check` [–] |
| C18 | The log-likelihood is the sum over measurements of the constraints on its observables | proved | Likelihood | `log_likelihood_is_sum` [–], `only_wanted_predictions_matter` [–], `missing_prediction_raises` [–] |
| C19 | The number of observations counts (measurement, observable) pairs | proved | Likelihood | `number_of_observations` [–], `observations_are_distinct_pairs` [–] |
| C20 | Cached predictions are the predictions | partial | Likelihood | `cached_predictions_partial` [–], `hash_collision_refuted` [–] |
| C21 | Parameter likelihood: only the listed parameters contribute | proved | Likelihood | `parameter_likelihood_is_sum` [–], `central_values_in_order` [–], `total_is_sum_of_parts` [–] |
| C22 | Loading a covariance reorders it to the requested observables | proved | Covariance | `sm_covariance_reordered` [–], `sm_single_observable` [–], `experimental_covariance_reordered` [–], `missing_observable_raises` [–], `save_load_identity` [–] |
| C23 | Covariance caching: recompute exactly when forced or absent | proved | Covariance | `cache_discipline` [–] |
| C24 | Pseudo-measurements never leak into other likelihoods | partial | Covariance | `pseudo_measurements_do_not_leak` [–], `own_pseudo_measurement_partial` [–], `different_names_do_not_interfere` [–], `same_name_refuted` [–] |
| C25 | The experimental average over measurements is the product of Gaussians | proved | Average | `average_is_product` [–], `order_independent` [–], `unconstrained_observables_drop_out` [–], `single_observable` [–] |
| C26 | Bracket-notation constraints mean what they say | proved | Parsing | `powers` [–], `brackets` [–], `zero_error` [–] |
| C27 | Plus-minus constraints mean what they say | proved | Parsing | `plusminus` [–], `zero_error` [–] |
| C28 | Every accepted constraint string yields a usable constraint | partial | Parsing | `refuted` [–], `partial` [–] |
| C29 | Limits, ranges, lognormal factors and plain numbers are recognised | proved | Parsing | `number` [–], `limit` [–], `range` [–], `lognormal` [–] |
| C30 | The citation set is exactly what was registered | proved | Citations | `citation_set` [–] |
| C31 | Collecting citations is properly scoped | proved | Citations | `scope` [–], `theory_citations` [–], `program` [–] |
| C32 | Reported parameter dependence is sound | proved | Functions | `reported_dependence_sound` [–] |
| C33 | The error budget groups parameters exactly by shared constraint | proved | Functions | `error_budget` [–], `error_budget_total` [–] |
| C34 | SM covariance varies exactly the requested parameters | proved | Functions | `points_list` [–], `points_all` [–], `serial_parallel` [–] |
| C35 | Combining measurements of one observable | proved | Functions | `combine_measurements` [–], `keyword_arguments` [–] |
| C36 | Parallel and serial uncertainties evaluate the same function calls | proved | Functions | `same_calls` [–] |
| C37 | Convolution of Gaussians | proved | Dist | `same_centre` [EFS], `sum` [EFS], `delta_neutral` [EFS], `single_and_errors` [EFS], `sum_with_delta` [EFS], `mixed` [EFS] |
| C38 | Combination of Gaussians is the product of their densities | proved | Dist | `product_of_densities` [CEFS], `weighted_average` [CEFS], `mixed` [EFS] |
| C39 | Combination with exactly known values | proved | Dist | `delta_wins` [EFS] |
| C40 | Constructors reject invalid widths and keep valid ones | proved | Dist | `constructors` [EF], `central_value_in_support` [CEFS], `accepted_are_documented` [EF] |
| C41 | Log-density relative to the maximum | partial | Dist, MVN | `relative_logpdf_partial` [CEFS], `multivariate` [CDEFS] |
| C42 | Removing components of a multivariate normal is marginalisation | proved | MVN | `reduce` [CDEFS], `positions` [–], `range` [CDEFS], `logpdf` [CDEFS], `positive` [CDEF] |
| C43 | Internal rescaling does not change the multivariate normal density | proved | MVN | `density` [CDEFS], `mode` [CDEFS] |
| C44 | Distribution names convert back and forth | proved | DistNames | `name_of_class` [–], `back_to_class` [–], `flavio_classes` [–], `all_classes` [–] |
| C45 | Numerical distributions are probability distributions | proved | Numerical | `probability_distribution` [CEFS], `central_outside` [EF], `default_central_is_mode` [EF] |
| C46 | Correlation matrices are completed correctly | proved | Loading | `number` [EF], `triangle` [EF], `symmetric` [EF], `accepted` [EF] |
| C47 | SM running passes every quark threshold exactly once | proved | Running | `steps` [EF], `ends` [EF], `requested_flavours` [EF] |
| C48 | Configuration changes are honoured | partial | Running | `some_configuration` [EF], `constant_configuration` [EF], `stale_refuted` [EF] |
| C49 | List deduplication keeps first occurrences | proved | InstanceIO | `deduplicate` [–] |
| C50 | Saving only parameter differences loses nothing | partial | Constraints | `parameter_difference_partial` [–], `change_and_change_back_refuted` [–] |
| C51 | A dumped likelihood loads to an equivalent likelihood | partial | InstanceIO | `measurement_likelihood_partial` [–], `fast_likelihood_partial` [–], `likelihood_dump_refuted` [–], `pseudo_flag_refuted` [–], `no_nuisance_parameters_refuted` [–], `parameter_likelihood_partial` [–], `empty_parameter_list_refuted` [–] |
| C52 | CKM products satisfy unitarity and angles sum to pi | proved | Basics | `value` [F], `unitarity` [F], `exchange` [EF], `names` [F], `angles` [CEFS] |
| C53 | CP conjugation of parameters is an involution | proved | Basics | `parameters` [EF], `coefficients` [EF], `ckm` [F] |
| C54 | Kallen function and adding dictionaries | proved | Basics | `symmetric` [EF], `value` [EF], `masses` [EF], `add_dict` [EF], `add_order` [EF], `add_none` [F] |
| C55 | Meson mixing observables are physical | proved | Mixing | `eigenstates` [EFS], `differences` [EFS], `D_system` [CEFS], `asymmetry` [CEFS], `rephasing` [CEFS], `quark_phases` [CEFS], `conjugation` [CEFS], `bounds` [EFS], `unitarity_triangle` [CEFS] |
| C56 | Angular observables are physical | proved | Angular | `distribution` [EFS], `distribution_positive` [EFS], `rate_positive` [EFS], `FL` [EFS], `FL_amplitudes` [EFS], `AFB` [EFS], `reconstruct` [EF], `rate_asymmetry` [EFS] |
| C57 | Robust minimisation returns the first success | proved | Basics | `first_success` [EF], `no_success` [EF], `maximize` [EF], `value` [EF] |
| C58 | A subclass keeps its own registry | partial | Registry | `subclass_registry_refuted` [–] |
| C59 | One distribution object used for several parameters counts for each of them | partial | Constraints | `shared_distribution_object_refuted` [–] |
| C60 | A constrained, non-excluded parameter always contributes to the log-probability | partial | Constraints | `duplicate_name_refuted` [–] |
| C61 | One-dimensional right and left errors belong to the right parameter | proved | Constraints | `errors_rightleft` [–] |
| C62 | Every saved constraint object can be loaded again | partial | Constraints | `saved_object_loads_refuted` [–] |
| C63 | Format 'list' gives the name of an observable without arguments | partial | Observables | `list_format_of_dict_refuted` [–] |
| C64 | Redefining an observable in terms of itself is safe | partial | Observables | `self_redefinition_refuted` [–] |
| C65 | The implementation used for an auxiliary quantity belongs to that quantity | partial | Observables | `implementation_of_other_quantity_refuted` [–] |
| C66 | Surplus observable arguments are rejected in every form | partial | Observables | `surplus_arguments_refuted` [–] |
| C67 | An include list is always honoured | partial | Likelihood | `include_list_refuted` [–] |
| C68 | Predictions follow changes of the registered predictions and implementations | partial | Likelihood | `cache_ignores_configuration_refuted` [–] |
| C69 | A ParameterLikelihood can be evaluated with its default arguments | partial | Likelihood | `default_parameters_refuted` [–] |
| C70 | The correlation warning counts the right measurements | proved | Likelihood | `correlation_warning_counts` [–] |
| C71 | A one-observable likelihood gets numbers from a larger covariance file | partial | Covariance | `single_observable_from_larger_file_refuted` [–] |
| C72 | No part of an accepted constraint string is silently ignored | partial | Parsing | `refuted` [–] |
| C73 | Every parameter read by a prediction is reported | partial | Functions | `all_reads_reported_refuted` [–] |
| C74 | Serial and parallel uncertainties reject the same calls | partial | Functions | `conflicting_arguments_refuted` [–] |
| C75 | sm_covariance accepts observables in dictionary form and leaves them unchanged | partial | Functions | `dict_observables_refuted` [–] |
| C76 | The asymmetric normal density is continuous and is what is sampled | proved | Dist | `asymmetric_normal` [CEFS] |
| C77 | An upper limit has the stated confidence level below it | proved | Dist | `gaussian_upper_limit` [EF], `gamma_upper_limit` [EF] |
| C78 | Any two numbers of counts determine the third | proved | Dist | `counts` [EF], `wrong_counts_rejected` [EF] |
| C79 | Upper limits accept any two numbers of counts | partial | Dist | `gamma_upper_limit_counts_refuted` [EF] |
| C80 | The support of a log-normal distribution contains its central value | partial | Dist, Numerical | `negative_lognormal_support_refuted` [CEFS], `negative_lognormal_combination_refuted` [CEFS] |
| C81 | Error bars of a log-normal distribution are multiplicative | proved | Dist | `lognormal_errors` [CEFS] |
| C82 | Ranges are validated | partial | Dist | `unchecked_ranges_refuted` [CEFS] |
| C83 | Distributions survive conversion to a dictionary and back | partial | Dist | `dictionary_roundtrip_partial` [EF], `wrong_arguments_rejected` [EF], `kernel_refuted` [EF], `general_gamma_refuted` [EFS] |
| C84 | The cumulative distribution is the integral of the density | partial | Numerical | `cdf_is_not_the_integral_refuted` [CEFS] |
| C85 | Error ranges of a numerical distribution cover the requested probability | proved | Numerical | `error_ranges` [EF] |
| C86 | Combining numerical distributions multiplies their densities | proved | Numerical | `combination` [CEFS], `no_overlap` [CEFS], `common_support_exists` [EF], `combine_distributions` [CEFS] |
| C87 | Convolving numerical distributions adds random variables | proved | Numerical | `convolution` [CEFS], `different_centres` [CEFS] |
| C88 | Conversion to a table keeps the distribution | proved | Numerical | `conversion_to_table` [CEFS] |
| C89 | Every accepted table is usable | partial | Numerical | `only_last_density_refuted` [EF] |
| C90 | Loading a file adds its constraints in order | proved | Constraints | `loading_adds_entries_in_order` [–] |
| C91 | string_to_class gives a distribution or raises NameError | partial | DistNames | `arbitrary_objects_refuted` [–], `names_coincide_refuted` [–] |
| C92 | Completed correlation matrices are symmetric with the given elements | partial | Loading | `correlation_refuted` [EF] |
| C93 | Measurement files are loaded as written | proved | Loading | `loaded_as_written` [EFS], `unambiguous` [EFS], `new_format` [EFS] |
| C94 | A failed load changes nothing and reports the problem | partial | Loading | `failed_load_refuted` [EFS] |
| C95 | Correlated parameters keep their variances | proved | Loading | `correlated_parameters` [EFS] |
| C96 | Particle data determine masses and lifetimes | proved | Loading | `particle_data` [EF], `names_and_numbers` [EF] |
| C97 | Uncertainties of lifetimes follow from those of widths | partial | Loading | `lifetime_sides_refuted` [EF] |
| C98 | The requested number of flavours is honoured | partial | Running | `requested_flavours_ignored` [EF], `requested_flavours_refuted` [EF] |
| C99 | Results of running are independent of each other | partial | Running | `shared_result_refuted` [EF], `equal_scales_copied` [EF] |
| C100 | The running fine-structure constant is continuous and increasing | proved | Running | `number_of_flavours` [EF], `value` [CEFS], `start` [CEFS], `continuous` [CEFS], `increasing` [CEFS], `wrong_flavours` [CEFS] |
| C101 | Transverse decay constants run along the thresholds | proved | Running | `path` [CEFS], `start` [CEFS] |
| C102 | Conjugated parameters give the conjugated CKM matrix | partial | Basics | `wolfenstein_refuted` [F], `not_conjugated_refuted` [EFS] |
| C103 | Element symbols and atomic numbers correspond | proved | Basics | `symbols` [–], `range` [–], `known` [–] |
| C104 | Unsuccessful attempts are continued | partial | Basics | `restart_refuted` [EF] |
| C105 | Pulls and differences of chi-squared are inverse to each other | proved | Basics | `inverse` [EFS], `pvalue` [EFS], `one` [EFS] |
| C106 | Pulls of negative differences do not depend on special cases | partial | Basics | `negative_refuted` [EFS] |
| C107 | Multivariate normal distributions are constructed consistently | proved | MVN | `covariance` [CDEFS], `triangle` [CDEFS], `deviations` [CDEFS], `errors` [CDEFS] |
| C108 | Missing elements below the diagonal are filled in | partial | MVN | `small_refuted` [CDEFS], `example_refuted` [CDEFS] |
| C109 | Combining multivariate normals multiplies densities, convolving adds covariances | proved | MVN | `combination` [CDEFS], `convolution` [CDEFS] |
| C110 | Multivariate convolution returns a distribution or raises a documented error | partial | MVN | `arrays_refuted` [CDEFS], `none_refuted` [CDEFS] |
| C111 | delta_logpdf accepts the exclusions that logpdf accepts | partial | MVN | `negative_refuted` [CDEFS] |
| C112 | Mixing amplitudes are linear and chirality symmetric | proved | Mixing | `linear` [CEFS], `chirality` [CEFS], `matrix_elements` [CEFS], `conjugation` [CEFS], `standard_model` [CEFS] |
| C113 | Box functions: GIM cancellation and continuity | proved | Mixing | `symmetric` [CEFS], `gim` [CEFS], `continuous` [CEFS], `unitarity` [CEFS], `inami_lim` [CEFS] |
| C114 | Documented meson mixing conventions hold | partial | Mixing | `sign_refuted` [EFS], `phi12_refuted` [CEFS], `x12Im_refuted` [CEFS] |
| C115 | A_FB and FLhat are what their names say | partial | Angular | `AFB_refuted` [CEFS], `FLhat_refuted` [EFS] |
| C116 | Rate and forward-backward asymmetry are integrals of the angular distribution | proved | Angular | `rate` [CEFS], `AFB` [CEFS], `AFB_vector` [CEFS], `AFB_equal_masses` [CEFS] |
| C117 | Parity, strong phases and phase conventions of angular coefficients | proved | Angular | `parity` [EFS], `no_strong_phases` [EFS], `common_factor` [EFS] |
| C118 | Interference coefficients of time-dependent decays | proved | Angular | `interference` [EFS], `same_amplitudes` [EFS], `opposite_phase` [EFS], `bound` [EFS] |
| C119 | Angular distribution of B -> P l l | proved | Angular | `distribution` [EFS], `positive` [EFS], `integrals` [CEFS], `observables` [EFS] |
| C120 | Optimised observables are bounded | proved | Angular | `P123` [EFS], `P48` [EFS], `P56` [EFS], `massless` [EFS], `transversity` [EFS], `published` [EFS] |
| C121 | Helicity amplitudes are contractions of matrix elements | proved | AngularFF | `vector` [EFS], `frame` [EFS], `pseudoscalar` [EFS], `basis` [EF] |
| C122 | Only left-handed neutrinos are produced | proved | AngularFF | `charged_current` [EFS], `neutral_current` [EFS], `pseudoscalar` [EFS] |
| C123 | Only left-handed neutrinos in B -> P l nu with tensor operators | partial | AngularFF | `tensor_refuted` [EFS], `tensor_value` [EFS] |
| C124 | Distributions of B -> V l nu in one angle | proved | Decays | `differential` [CEFS], `bins` [CEFS], `full` [EFS], `polarisation` [EFS], `positive` [CEFS] |
| C125 | Branching ratios in bins add up to the total | proved | Decays | `outside` [EFS], `mean` [EFS], `bins` [EFS], `cover` [EFS], `total` [CEFS], `polarisation` [EFS], `angle_bins` [EFS], `angle_total` [EFS], `angle_density` [CEFS] |
| C126 | Fractions and asymmetries of B -> V l nu are bounded | proved | Decays | `bins` [CEFS], `fractions` [CEFS], `FL` [CEFS], `AFB` [CEFS], `FLt` [CEFS] |
| C127 | Neutrino flavours and lepton universality | proved | Decays | `other_neutrinos` [CEFS], `no_mixing` [EFS], `universality` [EFS], `ratios` [CEFS] |
| C128 | Every registered B -> V l nu observable can be computed | partial | Decays | `refuted` [EFS] |
| C129 | Branching ratios of B -> P l nu | proved | Decays | `spectrum` [CEFS], `bins` [CEFS], `bounds` [EFS] |
| C130 | Integration helpers return the integral | proved | DecaysNC | `pole` [CEFS], `pole_exact` [CEFS], `complex` [EFS] |
| C131 | B -> V l l: spectra, bins and angular observables come from one angular distribution | proved | DecaysNC | `spectrum` [CEFS], `bins` [CEFS], `total` [CEFS], `names` [CEFS], `differential` [CEFS], `binned` [CEFS], `integrable` [EFS] |
| C132 | B -> V l l: bounds of binned observables and lepton-flavour ratios | proved | DecaysNC | `FL` [CEFS], `FL_upper` [CEFS], `AFB` [CEFS], `P123` [CEFS], `P48` [CEFS], `P56` [CEFS], `R` [CEFS], `R_same` [CEFS], `R_positive` [CEFS] |
| C133 | ACP(B -> V l l) is the CP asymmetry of the rate | partial | DecaysNC | `half_refuted` [CEFS], `instance_refuted` [CEFS] |
| C134 | B -> P l l: spectra, bins, AFB, FH, ACP and ratios | proved | DecaysP | `spectrum` [CEFS], `bins` [CEFS], `total` [CEFS], `angular` [CEFS], `ACP` [CEFS], `bounds` [EFS], `differential` [CEFS], `R` [EFS] |
| C135 | B_s -> V l l: published quantities are those of untagged, time-integrated decays | proved | DecaysBs | `exists` [CEFS], `spectrum` [CEFS], `names` [CEFS], `differential` [CEFS], `binned` [CEFS], `bins` [CEFS], `total` [CEFS] |
| C136 | B_s -> V l l: bounds, limit without width difference, lepton ratios | proved | DecaysBs | `FL` [CEFS], `no_width_difference` [CEFS], `R` [CEFS] |
| C137 | Coefficient dictionaries of a sector are complete | proved | EFT | `sm` [–], `np` [–], `errors` [–] |
| C138 | Old and new names of sectors are interchangeable | proved | EFT | `same` [–], `unique` [–] |
| C139 | Predictions with one Wilson object do not influence each other | partial | EFT | `predictions_partial` [–], `owner_partial` [–], `constant` [–], `stale_refuted` [–], `owner_refuted` [–] |
| C140 | The number of flavours selects the theory | partial | EFT | `eft` [–], `values` [–], `unchecked_refuted` [–] |
| C141 | Initial values can be read back in the flavio basis | partial | EFT | `initial` [–], `basis_refuted` [–] |
| C142 | B -> l l: rates, time integration, effective lifetime | proved | Leptonic | `rate_formula` [EFS], `time_integrated` [CEFS], `effective_lifetime` [CEFS], `ranges` [EFS], `one_state` [EFS], `asymmetry_from_lifetime` [EFS], `flavours` [EFS] |
| C143 | P -> l nu and tau -> P nu: sum over neutrino flavours of two-body widths | proved | Leptonic | `widths` [EFS], `charm` [EFS], `helicity_suppression` [EFS], `tau` [EFS] |
| C144 | D -> l nu with scalar operators uses the quark masses of the meson | partial | Leptonic | `bc_masses` [EFS], `scalar_refuted` [EFS] |
| C145 | tau -> l nu nu: SM limit and new physics in other flavours | proved | Leptonic | `standard_model` [CEFS], `fermi_constant` [CEFS], `fermi_absorbs` [CEFS], `left_handed` [CEFS], `either_name` [CEFS] |
| C146 | tau -> l nu nu: branching ratios are non-negative | partial | Leptonic | `negative_refuted` [CEFS] |
| C147 | Decays of a fermion to a fermion and a boson | proved | Leptonic | `vector` [EFS], `scalar` [EFS], `photon` [EFS] |
| C148 | Expansion variable z | proved | FormFactors | `range` [EFS], `default` [EFS], `recoil` [EFS], `expansion` [EF] |
| C149 | f+(0) = f0(0) | proved | FormFactors | `zero_momentum` [EFS] |
| C150 | f+(0) = f0(0) for the plain BCL parametrisation | partial | FormFactors | `plain_bcl_refuted` [EFS], `plain_bcl_D_refuted` [EFS], `opposite_sign_refuted` [EFS] |
| C151 | BCL parametrisations: behaviour at the threshold | proved | FormFactors | `threshold` [EFS] |
| C152 | B -> V form factors at zero momentum transfer | proved | FormFactors | `zero_momentum` [EFS] |
| C153 | CLNexp-IW tensor form factors at zero momentum transfer | partial | FormFactors | `T23_refuted` [EFS], `T1_T2_refuted` [EFS] |
| C154 | Form factors leave the parameter dictionary alone | partial | FormFactors | `bsz_writes` [EFS], `sse_writes` [EFS], `changed_refuted` [EFS] |
| C155 | Lambda_b -> Lambda form factors at maximal momentum transfer | proved | FormFactors | `endpoint` [EFS] |
| C156 | Lambdab->Lambda SSE3 uses three coefficients | partial | FormFactors | `third_coefficient_ignored_refuted` [EFS] |
| C157 | Registered form-factor implementations can be evaluated | partial | FormFactors | `unusable_refuted` [EFS] |
| C158 | CLN form factors at zero recoil | proved | FormFactors | `zero_recoil_Dstar` [EFS], `zero_recoil_D` [EFS] |
| C159 | Electroweak observables do not depend on operator combinations removable by field redefinitions | proved | EW | `Z` [CEFS], `coupling` [CEFS], `W` [EFS] |
| C160 | Z widths, ratios and asymmetries are consistent | proved | EW | `couplings` [CEFS], `asymmetries` [CEFS], `fcnc` [CEFS], `sums` [CEFS], `direct` [CEFS], `muon_decay` [CEFS], `sm` [CEFS] |
| C161 | W widths and branching ratios are consistent | proved | EW | `sm` [EFS], `sum` [EFS], `coupling` [EFS] |
| C162 | Flavour-universal new physics does not give lepton-flavour violating W decays | partial | EW | `refuted` [EFS] |
| C163 | W widths do not depend on quark phase conventions | partial | EW | `refuted` [EFS] |
| C164 | Higgs signal strengths | proved | Higgs | `linear` [EF], `relations` [EF], `width` [EFS], `strength` [EFS], `muon_decay` [EF] |
| C165 | Higgs signal strengths are non-negative | partial | Higgs | `refuted` [EFS] |
| C166 | ee -> WW cross-section ratio | proved | Higgs | `energies` [EF], `linear` [EF], `keys` [EF] |
| C167 | Differential ee -> WW cross section is normalised to the SM | partial | Higgs | `refuted` [EF] |
| C168 | Neutrino tridents and anomalous magnetic moments | proved | Higgs | `trident` [EFS], `al` [EFS] |
| C169 | Lepton-flavour violating decays to three leptons | proved | LFV | `tau` [CEFS], `bound` [CEFS], `dipole` [CEFS], `mu3e` [CEFS] |
| C170 | Muon to electron conversion in nuclei | proved | LFV | `rate` [CEFS], `laws` [CEFS] |
| C171 | Lepton-flavour violating tau decays to a meson | proved | LFV2 | `vector` [EFS], `vector_laws` [EFS], `pion` [EFS], `pion_laws` [EFS], `kaon` [EFS] |
| C172 | Dipole moments of quarks are proportional to their own mass | partial | EDM | `quark_mass_refuted` [EFS], `quark_mass_partial` [EFS] |
| C173 | Electric dipole moments violate CP | proved | EDM | `fermions` [EFS], `neutron` [EFS], `nucleus` [EF], `paramagnetic` [EFS] |
| C174 | Paramagnetic systems use the proton and neutron numbers of their heavy nucleus | partial | EDM | `nuclei_refuted` [EFS], `nuclei_partial` [EFS] |
| C175 | Total Wilson coefficients of flavour-changing neutral currents | proved | WCtot | `total` [CEFS], `errors` [CEFS] |
| C176 | Effective Wilson coefficients for B -> M l l | proved | WCtot | `defined` [CEFS], `leptons` [CEFS], `linear` [CEFS], `corrections` [CEFS], `F89` [CEFS] |
| C177 | One-loop matrix elements of four-quark operators | proved | WCtot | `scale` [CEFS], `massless_charm` [CEFS], `imaginary_part` [CEFS] |
| C178 | Decays B -> M nu nu: rates, polarisation and bins | proved | Rare | `vector_rate` [EFS], `pseudoscalar_rate` [EFS], `longitudinal_fraction` [EFS], `beyond_endpoint` [EFS], `binned_rates` [CEFS], `total` [CEFS], `binned_fraction` [CEFS] |
| C179 | New physics in B -> M nu nu | proved | Rare | `left_handed` [EFS], `pseudoscalar_sum` [EFS], `flavour_violation_adds` [EFS] |
| C180 | Decays K -> pi nu nu | proved | RareK | `branching_ratios` [CEFS], `grossman_nir` [CEFS], `only_sum` [CEFS], `cp_conserved` [CEFS], `flavour_violation_adds` [CEFS] |
| C181 | The K -> pi nu nu prediction does not depend on the scale of the electromagnetic coupling | partial | RareK | `refuted` [CEFS], `top_partial` [CEFS] |
| C182 | Lepton-flavour violating B decays B -> M l l' | proved | RareL | `rates` [EFS], `outside` [EFS], `total` [CEFS], `both_charges` [EFS], `pseudoscalar_sums` [EFS], `quadratic` [EFS], `exchange` [EFS] |
| C183 | Isospin of lepton-flavour violating decays to rho0 | partial | RareL | `refuted` [CEFS] |
| C184 | Observables of B -> V gamma | proved | RareG | `observables` [EFS], `bounds` [EFS], `null_tests` [EFS], `time_integrated` [EFS] |
| C185 | Loop functions h and F_87 with special cases | proved | RareH | `defined` [CEFS], `imaginary_part` [CEFS], `scale` [CEFS], `dimensionless` [CEFS], `small_q2` [CEFS], `light_quarks` [CEFS], `continuous` [CEFS], `F87` [CEFS] |
| C186 | Conventions and electroweak correction of charged-current coefficients | proved | WCtot | `conventions` [EF], `electroweak` [CEFS] |
| C187 | Leptonic decays of vector quarkonia | proved | Onium | `nonneg` [EFS], `charges` [EFS], `photon` [EFS], `universality` [EFS], `lifetime` [EFS], `lfv_vector` [EFS], `lfc_vector` [EFS], `lfc_tensor` [EFS] |
| C188 | Leptonic decays of scalar and pseudoscalar quarkonia | proved | Onium | `nonneg` [EFS], `charges` [EFS], `waves` [EFS] |
| C189 | Charge symmetry of pseudoscalar quarkonium decays | partial | Onium | `partial` [EFS], `refuted` [EFS] |
| C190 | Current conservation in pseudoscalar quarkonium decays | partial | Onium | `refuted` [EFS] |
| C191 | Radiative lepton-flavour violating decays of vector quarkonia | proved | Onium | `threshold` [CEFS], `positive` [CEFS], `massless` [CEFS], `charges` [CEFS], `equal_mass` [CEFS] |
| C192 | Positivity of radiative quarkonium decays | partial | Onium | `refuted` [CEFS] |
| C193 | Neutron decay: positive distribution | proved | Beta | `distribution` [EFS], `bounds` [EFS] |
| C194 | Correlation coefficients of beta decays: bounds and symmetries | proved | Beta | `bounds` [EFS], `normalisation` [EFS], `time_reversal` [EFS], `real` [EFS], `cp` [EFS], `forbidden` [EFS] |
| C195 | Neutron decay: V - A limit | proved | Beta | `va` [EFS], `wc` [EFS], `sm` [EFS], `couplings` [EFS] |
| C196 | Ft values and the neutron lifetime | proved | Beta | `formula` [CEFS], `positive` [CEFS], `universal` [CEFS], `master` [CEFS] |
| C197 | Elements and isotopes | proved | Beta | `elements` [–], `daughters` [EF] |
| C198 | K0 -> l l | proved | Kaon | `nonnegative` [EFS], `differences` [EFS], `SM` [EFS], `sum_symmetric` [EFS] |
| C199 | BR(KS->emu,mue) has a value | partial | Kaon | `refuted` [EFS] |
| C200 | K -> pi l nu | proved | Kaon | `spectrum` [CEFS], `total` [CEFS] |
| C201 | Electromagnetic corrections of K+ decays are applied | partial | Kaon | `refuted` [EFS] |
| C202 | K -> pi l nu averaged over l | partial | Kaon | `refuted` [CEFS] |
| C203 | Ratios in semi-leptonic kaon and hyperon decays | proved | Kaon | `SM` [CEFS], `scalar` [CEFS], `hyperon` [EF], `right_handed` [EF] |
| C204 | K -> pi pi and eps'/eps | proved | Kaon | `relations` [EF], `parity` [EF], `amplitude_NP` [EFS], `isospin` [EF], `operators` [EF], `parameters` [EF], `fierz` [EF], `epsprime_NP` [EFS], `epsprime_SM` [EFS], `sum` [EFS] |
| C205 | Matrix elements of scalar operators and Fierz identities | partial | Kaon | `refuted` [EF] |
| C206 | Lambda_b -> Lambda l l | proved | Baryon | `helicity_sum` [EFS], `nonneg` [EFS], `moments` [CEFS], `fractions` [EFS], `bounds` [EFS], `bins` [EFS], `dBR` [EFS], `mirror` [EFS], `lepton_chirality` [EFS], `zero_recoil` [EFS], `dipole_interference` [EFS] |
| C207 | The full angular distribution of Lambda_b -> Lambda l l | partial | Baryon | `real_parts_partial` [EFS], `in_plane_partial` [EFS], `refuted` [EFS] |
| C208 | Lambda_b -> Lambda(1520) l l | proved | Baryon | `helicity_sum` [EFS], `nonneg` [EFS], `moments` [CEFS], `fractions` [EFS], `bounds` [EFS], `bins` [EFS], `cp` [EFS], `zero_recoil` [EFS], `dipole_interference` [EFS] |
| C209 | Neutral Drell-Yan: pp -> l l | proved | Dilep | `partonic` [CEFS], `positive` [EFS], `bins` [CEFS], `ratio` [CEFS], `sm` [EFS] |
| C210 | Charged Drell-Yan: pp -> l nu | proved | Dilep | `transverse_mass` [CEFS], `bins` [CEFS], `total` [CEFS], `sm` [CEFS] |
