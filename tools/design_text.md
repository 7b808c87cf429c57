# Formal model of flav-io/flavio in Rocq (Coq 8.16.1)

@@N@@ properties, @@NT@@ property theorems; @@NP@@ properties proved in full, @@NQ@@ partial (most of
these are properties a user would rely on and which the code violates: a theorem `..._refuted`
proves the violation for a concrete witness or for a whole class of inputs, and the part that does
hold is proved beside it).

(This file is assembled by `tools/design.py` from `tools/design_text.md`, `MANIFEST.json` and the
parsed `Print Assumptions` output; `properties.jsonl` by `tools/gen.py`, `MANIFEST.json` by
`tools/manifest.py`.)

## 1. Method and layout

Shallow Gallina models that mirror the Python functions branch by branch; a Python exception is a
value (`Err exc`); mutable state is threaded explicitly; histories are lists of operations and the
theorems about them are by induction over the list.  For every topic `T` there are in
`rocq/theories/`:

* `T_Model.v`   – definitions only; every definition cites the `/repo` file and lines it models and
  states its simplifications,
* `T_Spec.v`    – the small independent specification the theorems are stated against (it does not
  use the helper functions of the model; where it is tiny it is part of `T_Props.v`),
* `T_Proofs*.v` – lemmas and proofs,
* `T_Props.v`   – the property theorems, each followed by `Print Assumptions`, and `Example`s showing
  that a concrete, non-trivial case meets the hypotheses.

`Base.v`/`BaseLemmas.v` hold the Python run-time vocabulary shared by all (results, insertion-ordered
dictionaries, boolean equality); `Regex.v` is a backtracking regular-expression engine with Python's
priority order; `RealField.v` makes Coq's reals a mathcomp field for the matrix models.

Naming: `Cxx_...` is a theorem for property Cxx.  `..._partial` = part of the property (what is missing
is said in the comment and in MANIFEST.json); `..._refuted` = the full statement is false of the code
as written, the theorem proves it (a finding, §5).

Physics: floats are idealised as exact reals (`R`) or complex numbers (Coquelicot's `C`).  The
formulae of the code are transcribed term by term; the specification states what the quantity *is*
(the integral of an angular distribution, the time integral of oscillating amplitudes, the contraction
of currents, a marginal density, ...), and the theorem says that the code's closed formula equals it,
for all parameters.

## 2. Plan per unit

| unit | properties | what is modelled | how it is proved |
|---|---|---|---|
| Registry | C01, C02, C58 | `classes.py` NamedInstance(Class/MetaClass): `OrderedDict` as association list, ops create/del/clear/get, attribute inheritance of `instances` | refinement of an abstract history function, induction over operation lists |
| Constraints, ConstraintsIO | C03–C09, C50, C59–C62 | `classes.py` Constraints/ParameterConstraints: state `(_constraints, _parameters)`, distributions as objects with identity, yaml/dict forms | induction over histories; refinement to a "last mention" specification; index algebra |
| Observables | C10–C16, C63–C66 | Observable/Prediction/Measurement/AuxiliaryQuantity/Implementation, argument formats, taxonomy tree | list/dict algebra, tree induction |
| Likelihood | C17–C21, C67–C70 | `statistics/likelihood.py` MeasurementLikelihood, ParameterLikelihood, Likelihood with prediction cache | set algebra, sums over measurements, cache state machine with an explicit hash |
| Covariance, Average | C22–C25, C71 | SMCovariance/MeasurementCovariance/FastLikelihood, weighted averages | index lemmas, state machine, field identities, limits |
| InstanceIO | C49, C51 | `io/instanceio.py`, dump/load of likelihoods, voluptuous schemas | list induction, schema application |
| Citations | C30, C31 | `citations.py` | history refinement; nested-scope program induction |
| Regex, Parsing | C26–C29, C72 | `_parse_errors.py` with its regular expressions as data run by a verified-by-use engine | matching lemmas for all generated strings, "must contain" lemmas for dispatch |
| Functions | C32–C36, C73–C75 | `functions.py`: AwareDict, sensitivity, error budget, SM covariance, threads | predictions as programs reading a dictionary; induction over programs |
| Dist, DistNames | C37–C41, C44, C76–C83 | `statistics/probability.py`, univariate classes, names, dict forms, counting statistics | real analysis (integrals with Coquelicot), case analysis over classes |
| Numerical | C45, C84–C89 | numerical distributions, convolution and combination on grids | sums over tables, piecewise linear integrals |
| MVN | C42, C43, C107–C111 | multivariate normal: constructor, scaling, completion, reduction, combination, convolution | matrices over R in mathcomp: marginalisation by induction on the number of variables and completing the square, congruence, Schur complements |
| Loading | C90–C97, C46 | `parameters.py`, `measurements.py`: yaml forms, correlation matrices, PDG table | list/dict refinement; exact rationals with numpy's tolerance |
| Running | C47, C48, C98–C101 | `physics/running/running.py`: thresholds, caches, alpha_e, transverse decay constants | case analysis over threshold order, state machine for the cache, real analysis |
| Basics | C52–C54, C57, C102–C106 | `ckm.py`, `common.py`, `elements.py`, `math/optimize.py`, `statistics/functions.py` | complex algebra, trigonometry |
| Mixing | C55, C112–C114 | `mesonmixing/*` | complex algebra, continuity by l'Hôpital-free estimates |
| Angular, AngularFF | C56, C115–C123 | `bdecays/angular.py`, angular observables | trigonometric integrals (Coquelicot), quadratic-form inequalities; Lorentz contractions for AngularFF |
| Decays | C124–C130 | `bvlnu.py`, `bplnu.py`, `math/integrate.py` | Riemann integrals over bins with clipping to the physical region |
| DecaysNC, DecaysP | C131–C134 | `bvll/observables.py`, `bpll.py` | linear functionals of angular coefficients, integrals over bins |
| DecaysBs | C135, C136 | `bvll/observables_bs.py` | time integrals of oscillating amplitudes, limits at infinity |
| EFT | C137–C141 | `eft.py` WilsonCoefficients: sectors, name translation, options and caches shared with `wilson` | dictionary algebra; state machine over histories of predictions and owner calls |
| Leptonic | C142–C147 | `bdecays/bll.py`, `blnu.py`, `dlnu.py`, `klnu.py`, `taudecays/{taupnu,taulnunu,common,taulgamma}.py` | two-body phase space and spin sums; time integrals of oscillating amplitudes; helicity amplitudes; monotonicity of the phase-space function |
| FormFactors | C148–C158 | `bdecays/formfactors/{common,hqet}.py`, `b_p/*`, `b_v/*`, `lambdab_12/*` (not the parameter loaders), `ddecays/formfactors/*`, `kdecays/formfactors.py` | exact real algebra on the z expansion; kinematic relations at q²=0, q²max and threshold for all coefficients; dictionaries as state |
| EW, Higgs | C159–C168 | `zdecays/*`, `wdecays/*`, `higgs/*`, `scattering/ee_ww.py` (of `ee_WW_diff` two bins), `neutrinos/trident.py`, `mdms/al.py` | couplings as complex numbers, coefficients as a function of an inductive type of names; algebra under the tree-level relation s²c²√2 GF mZ² = πα; invariance under field redefinitions; case analysis over fermions |
| LFV, EDM | C169–C174 | `taudecays/{tau3l,tauvl,taupl}.py`, `mudecays/*`, `edms/*` | completing squares (sharp positivity bound); parity as a table of exchanged coefficients; explicit amplitudes from quark content; countermodels for C172, C174 |
| Rare decays | C178–C185 | `bdecays/{bvnunu,bpnunu,bpll_lfv,bvgamma}.py`, `bvll/lfv.py`, `kdecays/kpinunu.py`, `matrixelements.py` | rates as sums of squares of polarisation amplitudes (from the angular coefficients); integrals by continuity on the phase space; Cauchy–Schwarz for time-dependent asymmetries; mean value theorem for limits of loop functions; countermodels for C181, C183 |
| Wilson coefficients | C175–C177, C186 | `bdecays/wilsoncoefficients.py`, `bdecays/matrixelements.py` | dictionaries as association lists with the generated names (nine sectors by computation); interpolation as segments of a line; linearity; loop functions of C185 |
| Quarkonium | C187–C192 | `quarkonium/{Vll,Pll,Sll,Vllgamma}.py` | amplitude squared as a sum of non-negative quadratic forms; signs of functions with logarithms by the mean value theorem; countermodels for C189, C190, C192 |
| Beta decays | C193–C197 | `betadecays/{common,ft}.py`, `elements.py` | distribution of polarised neutrons as a sum over electron helicities of positive Hermitian forms (Gram determinant); symmetries by algebra; tables by computation |
| Kaon decays | C198–C205 | `kdecays/{kll,kpilnu,lambdaplnu,kpipi}.py` | K → π l ν reduced to the spectrum of C129 by a scaling lemma for the helicity amplitudes; matrix elements as an association list, mirror images by a permutation of names; closed formulas by field |
| Baryon decays | C206–C208 | `bdecays/{lambdablambdall,lambdablambdall_subleading (as an arbitrary addition to the amplitudes),lambdablambda1520ll}.py` | distributions as sums of squares of helicity amplitudes; integrals of polynomials; Cauchy–Schwarz; countermodel for C207 |
| Dileptons | C209–C210 | `dileptons/{ppll,pplnu}.py` | parton luminosities as arbitrary non-negative continuous functions; partonic cross sections as integrals of squared helicity amplitudes; additivity of integrals in the bins |
@@PLAN2@@

## 3. Trusted base

* Coq 8.16.1 kernel (`coqc`; `vcheck` also runs `coqchk`).  No axioms, `Admitted`, `Parameter`,
  functors, module types, plugins or disabled checks in `rocq/theories/`.
* Libraries: the standard library, mathcomp (matrices), Coquelicot (integrals, limits, complex
  numbers).  Only standard-library axioms are used, listed in §6 per theorem.
* Fidelity of the reading of the source: the code cannot be run here.
* Idealisations: floats as exact rationals (`Qc`), reals (`R`) or an abstract field: no rounding,
  overflow or NaN (NaN is only discussed where the code accepts the strings 'nan'/'inf');
  dictionaries as insertion-ordered association lists; object identity as a number; hash functions
  explicit.
* Dependencies are parameters (section variables that appear as hypotheses in the statements): scipy's
  `quad`, `odeint`, `minimize`, `chi2`, random number generators and density estimators; numpy array
  semantics as used; the packages `wilson`/`wcxf` (validation, bases, running and matching), yaml.
  Where a theorem needs a property of such a dependency, it is an explicit hypothesis, and an
  `Example` shows that it can be met.  `quad` is idealised as the exact Riemann integral.

## 4. Modelled / not modelled

Modelled: see §2 and the citations at each definition.  In particular all of `classes.py`,
`citations.py`, `functions.py`, `_parse_errors.py`, `parameters.py`, `measurements.py`,
`statistics/likelihood.py`, `statistics/functions.py`, `io/instanceio.py`, `math/integrate.py`,
`math/optimize.py`, `math/functions.py` (normalisations), `physics/eft.py`, `physics/ckm.py`,
`physics/common.py`, `physics/elements.py`, `physics/running/running.py` (control flow),
`physics/mesonmixing/`, `physics/bdecays/angular.py`, and the observables of the decays listed in §2;
`statistics/probability.py` except: random sampling beyond what is stated, `KernelDensityEstimate`
bandwidth selection, the Gamma special functions (oracles).

Not modelled (and no property claims anything about them): the loaders and fitted constants of
form-factor parametrisations, the HQET matching functions `CV1`…`CT3` (arbitrary functions in the model), QCD factorisation (`bvll/qcdf*.py`), inclusive decays (`bxll*`,
`bxgamma`, `bxlnu`), `lambdablambdagamma`, `dileptons/partondist` (luminosities are parameters), `scattering`,
`zdecays/smeftew`; the numerical content of data files (`data/*.yml`, `*.npy`), except that keys are
looked up in them; plotting with matplotlib; SLHA reading; the numerical accuracy of integration and
ODE solving; pickling and multiprocessing (parallel evaluation is modelled as an order-preserving map).
@@NOTMOD2@@

Properties that cannot be expressed: none was dropped; statistical statements about pseudo-random
samples are stated about the distribution handed to the generator, not about the samples.

## 5. Findings

Each of these is visible in the code as read; those with a property id are proved.

**Registries, constraints, observables**
* C58 a subclass of an already used class shares its registry.  C59/C60 one distribution object for two
  parameters counts once; a name listed twice in one addition contributes nothing.
* C08/C50/C62 saving and reloading resurrects removed constraints, loses change-and-change-back, and
  cannot read argument-less objects with public attributes.
* C15/C16/C63–C66 rejected implementations stay registered; `show_all` drops implementations; 'list'
  format splits names into characters; `from_function` over the own name loses the prediction; the
  configured implementation need not belong to the quantity; surplus dictionary arguments are ignored.
* Not claimed: the default citation key `Straub:2018kue` is missing in `data/citations.yml` (KeyError
  inside `collect()`); `string_to_class` evaluates its argument; `get_1d_errors` returns None for
  unknown parameters; list-form values for observables without arguments give TypeError.

**Likelihoods and covariances**
* C20/C68 the prediction cache compares only hashes of the arguments (CPython: hash(-1) = hash(-2)).
* C24 two FastLikelihoods of one name replace each other's pseudo-measurement.  C67 an empty exclude
  list makes the include list ignored.  C69 the default `parameters=None` raises TypeError.  C71.
* C51 `Likelihood.dump` always raises; `include_pseudo_measurements` is lost; empty lists turn into
  "all".
* C73–C75 `par.get`/`items` are not tracked; copying an AwareDict forgets changes; with threads > 1 a
  positional value silently wins; `sm_covariance` mutates the caller's dictionary.
* Not claimed: misspelt names in `par_vary` are ignored and a string other than 'all' has substring
  semantics; `combine_measurements` ignores extra keyword arguments; `conjugate_par` returns a plain
  dict so keys read only through it are not recorded; `bsz.py` and `lambdab_12/sse.py` mutate the
  caller's parameter dictionary.

**Strings and files**
* C28 `'1.0 - 0.2'`, `'1.36 -0.1 +0.2'` → IndexError; a number written with U+2212 → AttributeError.
  C72 `'1.36 +0.3 -0.1 - 0.5'` drops 0.5.  Not claimed: `'1.0 */ 1.5 '` and `'(1.67 */ 1.5) * 1e-3'` are
  rejected; 'nan'/'inf' are accepted as delta distributions.
* C92/C94/C97 completed correlation matrices: docstring example rejected, non-symmetric entries added;
  failed loads leave bogus measurements; the two sides of lifetime errors are exchanged.

**Distributions**
* C79, C80, C82, C83, C84, C89, C91, C108, C110, C111 (see MANIFEST notes).
* Not claimed: negative standard deviations of a multivariate normal are accepted and flip the sign of
  correlations; a correlation matrix with diagonal ≠ 1 is accepted; `exclude=0` means "nothing excluded";
  `GeneralGammaDistributionPositive` cannot be constructed directly (AttributeError);
  `GammaDistributionPositive.get_random(None)` indexes a scalar; `MultivariateNumericalDistribution.get_dict(arraytolist=True)`
  mutates the object and `central_value=None` loses the support; `GammaCountingProcess(counts_background=2, counts_signal=-5)`
  is accepted; `DiscreteUniform(5, 1)` is accepted; HPD errors of numerical distributions compare the
  density at n sigma on one side with 1 sigma on the other.

**Running and effective theory**
* C48 stale cache after a change of thresholds; C98 `nf_out` ignored; C99 cached arrays are shared.
* C139 `WilsonCoefficients.from_wilson` shares options and cache with its source: stale results, and a
  prediction changes the owner's CKM options.  C140 an invalid `nf_out` is accepted in the SM; keys
  follow `eft`, not `nf_out`.  C141 `get_initial_wcxf` is not in the flavio basis.
* C144 D+ and Ds → l ν with scalar operators use m_b + m_c as quark masses.  C146 BR(τ → l ν ν) can be negative:
  the interference term lacks m_l/m_τ.  Not claimed: `GammaFvf` with a massless vector and non-zero vector couplings
  can be negative (only called with tensor couplings then); `GFeff` uses the measured, not the effective, constant.
* Not claimed: `get_wilson` uses the removed `np.complex`; the error message for `nf_out` lacks the
  value; `wctot_dict` raises KeyError for WCxf sector names that `get_wc` accepts; `WilsonCoefficients`
  objects are returned as they are, so the CKM parameters of `par` are not used in running.

**Physics**
* C102 `conjugate_par` is wrong for Wolfenstein and beta–gamma parametrisations.  C104 `minimize_robust`
  never continues from end points.  C106 pulls of negative chi-squared differences.
* C114 documented mixing conventions (sign of DeltaM, phi12, x12Im).  Not claimed: `a_fs`/`phi12` of K0
  divide by zero; new physics in Gamma12 is ignored; `bag_msbar2rgi` has an unbound variable for D0;
  the box function raises ZeroDivisionError at x = 1; `a_fs` can exceed 1 for |Gamma12| > |M12|.
* C115 `FLhat` = −S_1c is never positive; `AFB` omits J6c (wrong with scalar operators).  C123 the
  B → P tensor amplitude lacks a factor √2 (wrong-helicity neutrinos).  C128 observables registered
  for lep='l' raise KeyError.  C133 the published ACP(B → V l l) is half the CP asymmetry.
* Not claimed: `FL` can be negative with tensor amplitudes (not reachable through `get_wceff`);
  Bs → K*0 ll is treated with interference although the final state is flavour specific; only the phase
  of q/p is used for Bs; `bpll_obs` tests `lep == lep`; `FL_diff` is 0/0 at q2 = m_l²; `Itot_norm` has no
  zero guard; `h_tilde` does not exchange tensor amplitudes; `nintegrate_pole` ignores epsrel for
  q2min > 0.1.
* C150 plain BCL form factors (B → P BCL3/BCL4, D → P BCL2): wrong sign of the completing coefficient, f+(0) ≠ f0(0).
  C153 CLNexp-IW: T23 at q2 = 0 lacks 1 + a_T23.  C154 B → V BSZ and Λb SSE overwrite entries of the caller's
  parameter dictionary.  C156 Λb → Λ SSE3 (the default) uses two coefficients.  C157 registered implementations that
  always raise KeyError.  Not claimed: CLNexp takes the D*0 mass, its Isgur–Wise relations the D*+ mass.
- C162: `d_gWl`, `d_gWq` add the flavour-universal shift of the W coupling also for off-diagonal flavour indices, so universal new
  physics predicts W → e ν_μ (and shifts W → u s etc. independently of V_us).
- C163: `GammaW_NP` uses Re(g·δg) where Re(g*·δg) is meant; the W → u b width depends on the phase convention of the CKM matrix.
- C165, C167: linearised Higgs cross sections can be negative; the differential ee → WW cross section is not normalised to the SM.
- smeftew.py: the conjugation for i > j is dead code because the indices are sorted before; widths are not affected (C160_fcnc). The linear
  contribution of h → cc is left out of the total Higgs width (C164_width).
- C172: `edms/common.py: get_m` exchanges the masses of the u and d quarks. C174: `paraedm.py` has Z=3, N=4 for thallium and Z=N=1 for the molecules (and
  the TeX name of HfF for all molecules).
- C181: the charm contribution to K → π ν ν is multiplied by α_e(scale)², not α_e(m_Z)². C183: B⁰ → ρ⁰ l l' lacks the factor 1/2. Not claimed: binned FL of
  B → ρ⁰ ν ν divides a numerator without by a denominator with the factor 1/2; for q² > (m_B + m_M)² (unphysical) the ν ν rates are not 0.
- C189, C190: `quarkonium/Pll.py` `getS_lfv` combines the vector coefficients as m1 X + m2 Y (instead of m1 X − m2 Y), the same for both helicities and charge
  combinations. C192: `Vllgamma.py` `Fhat_P` lacks 1/12 (BR < 0 possible). Not claimed: combined observables of `Pll`, `Sll`, `Vllgamma` pass the couplings
  `ij`, `ji` of gluons or photons in the same order for both charge combinations.
* C199 `BR(KS->emu,mue)` raises UnboundLocalError for all inputs.  C201 the parameters 'K+e3 delta_EM', 'K+mu3 delta_EM' have no effect.  C202 the observables K → π l ν with
  l = 'l' raise KeyError ('m_l').  C205 signs of two matrix elements of scalar operators in `Kpipi_matrixelements_NP` are not consistent with one Fierz factor.
* C207 `lambdablambdall.py` lines 92–101: K4sc and K4s are imaginary parts, like K3sc and K3s; with these the angular distribution takes negative values (arXiv:1410.2115 has real parts).
@@FIND2@@

## 6. Assumptions

`Print Assumptions` of each property theorem, in the table of §7: S = `ClassicalDedekindReals.sig_not_dec`,
F = `ClassicalDedekindReals.sig_forall_dec`, E = `FunctionalExtensionality.functional_extensionality_dep`,
C = `Classical_Prop.classic`, D = `ClassicalEpsilon.constructive_indefinite_description`; "–" = closed
under the global context (@@NCLOSED@@ theorems).  S, F, E are how the standard library constructs the
real numbers; C enters through Coquelicot/real-analysis lemmas, D through the choice structure that
mathcomp demands of a field.  All are axioms of Coq's standard library; none is mine.

`vcheck` (coqchk) lists more names under `library_axioms`: fields of *sealed modules* of the standard
library (`RbaseSymbolsImpl`, `RinvImpl`, `ssrunder`) and of mathcomp (`bigop.BigOp`, `finset.SetDef`,
`fintype.*`, `perm.PermDef`, ...), which coqchk reports because the modules are opaque; they have
definitions there, are not axioms, and do not occur in any `Print Assumptions`.

## 7. Theorems

@@TABLE@@
