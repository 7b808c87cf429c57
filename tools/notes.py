# Notes for MANIFEST.json
NOTES = {
 "C02": "For the classes flavio ships (all direct children of the common base). See C58 for subclasses.",
 "C06": "For ordinary use (one distribution object per addition, no duplicate name within one addition); C59/C60 show the hypothesis is needed.",
 "C07": "Same hypothesis as C06.",
 "C08": "Proved up to removals: constraints in force survive. Full statement refuted: a removed constraint is back after saving and reloading.",
 "C10": "For observables whose argument names are distinct and different from 'name'. Gaps are separate properties C63, C66.",
 "C12": "For a new name that is not among the inputs; C64 covers the other case.",
 "C13": "Measurement keys are non-empty tuples or strings (an empty tuple as key would raise IndexError).",
 "C15": "Refuted: the constructor registers before it checks; the half-built object replaces an existing one and makes show_all raise.",
 "C16": "Proved: the last implementation of each quantity is shown. Refuted: the others are dropped.",
 "C63": "Refuted: the dictionary form is split into characters.",
 "C64": "Refuted: the observable is replaced before its prediction is read; the prediction is lost.",
 "C65": "Refuted: no check that the configured implementation belongs to the quantity.",
 "C66": "Refuted: surplus dictionary entries are ignored or passed through.",
 "C50": "Proved for modifications that are additions differing from every saved default; refuted for change-and-change-back.",
 "C58": "Refuted: a subclass of an already used class shares its registry.",
 "C59": "Refuted: two parameters constrained by the same distribution object contribute once.",
 "C60": "Refuted: a name listed twice in one addition silently contributes nothing.",
 "C62": "Refuted: an argument-less object with a public attribute saves to a dictionary that cannot be loaded.",
 "C17": "For options accepted and with at most one of the two lists given (C67 covers both given).",
 "C18": "For measurements in ordinary use (see C06).",
 "C20": "Proved if no earlier call with other predictions has the same hash; refuted otherwise: only the hash of the arguments is compared, and CPython hashes -1 and -2 alike.",
 "C67": "Refuted: an empty exclude list, which the constructor accepts, makes the include list ignored.",
 "C68": "Refuted: the cache key is the argument hash only.",
 "C69": "Refuted: the default parameters=None raises TypeError.",
 "C24": "No leak: proved in full. Own pseudo-measurement: proved unless another measurement of the same name is made; refuted for two FastLikelihoods of the same name.",
 "C25": "numpy's inverse of a matrix with infinite variances is modelled as the large-variance limit, which is proved (weight_limit). Sample means and covariances are data.",
 "C51": "Round trips proved for MeasurementLikelihood, FastLikelihood, ParameterLikelihood in normal use. Refuted: Likelihood.dump always raises; include_pseudo_measurements is lost; an empty nuisance list becomes 'all'; an empty parameter list becomes None.",
 "C71": "Refuted: MeasurementCovariance.load_dict stores one-element arrays (SMCovariance handles this case).",
 "C28": "Refuted as stated: '1.0 - 0.2' is accepted by the pattern but yields an empty list and an IndexError; a plain number written with U+2212 yields a dict and an AttributeError. C28_partial shows for every string that these are the only exceptions (besides ValueError) and when they occur.",
 "C72": "Refuted: '1.36 +0.3 -0.1 - 0.5' is read like '1.36 +0.3 -0.1'.",
 "C73": "Refuted: par.get and par.items are not tracked, and copying a changed AwareDict forgets the change.",
 "C74": "Refuted: with several threads the positional value silently wins.",
 "C75": "Refuted: the caller's dictionary loses its name at the first sample; the second raises KeyError.",
 "C41": "Proved for all univariate classes with analytic densities in flavio (uniform, discrete, delta, normal, log-normal, asymmetric, half-normal, Gaussian limit); gamma and numerical densities are oracles. The multivariate normal part is C41_multivariate.",
 "C79": "Refuted: GammaUpperLimit drops counts_signal, so every pair except (total, background) raises ValueError.",
 "C80": "Refuted: for negative central values the reported support is (positive number, 0).",
 "C82": "Refuted: negative half_range, lowest > highest, and central_value=0 outside the range are accepted.",
 "C83": "Proved for the twelve analytic classes (for counting processes with non-negative total, for discrete ranges that are not empty); refuted for kernel density estimates and for GeneralGammaUpperLimit with a small background uncertainty. Tables are not modelled here.",
 "C84": "Refuted: the cumulative distribution is a left Riemann sum, the density a linear interpolation: table 0,1,0 has cdf 0 at its middle where the integral is 1/2.",
 "C89": "Refuted: densities 0,0,1 are accepted (the density can be normalised), but the cumulative sum omits the last density, so cdf and ppf are 0/0.",
 "C91": "Both parts of the claim are refuted by proved counterexamples.",
 "C92": "All three parts of the claim are refuted, for all values concerned.",
 "C94": "Refuted for every failing file of the three forms.",
 "C97": "Refuted: the sides are exchanged for all asymmetric uncertainties.",
 "C48": "Refuted in full: after a change of the thresholds a call with the same arguments as before still returns the result for the old ones (C48_stale_refuted). Proved: every result belongs to a configuration that was in force, the current one for new arguments, and with a constant configuration the cache is invisible.",
 "C98": "Refuted: nf_out is ignored when running up, when the final scale has more flavours than requested, and when the initial scale is below the requested region. The positive part (running down into the region) is C47_requested_flavours.",
 "C99": "Refuted: the returned array is the cached one. Only between equal scales is the result a copy.",
 "C102": "The property fails: the Wolfenstein parameters are not changed by conjugate_par at all and beta keeps its sign; C102_not_conjugated_refuted gives a unitary parametrisation where the result is not the conjugate.",
 "C104": "The property fails: all attempts start from x0, shown with an optimiser that would succeed from the end point of its first attempt and never does.",
 "C106": "The property fails for every negative difference, as C106_negative_refuted shows for all of them.",
 "C108": "The property fails: C108_small_refuted shows that every upper triangular matrix with positive diagonal and small elements is kept as it is; C108_example_refuted gives variances of 1e-18 with correlation 1/2.",
 "C110": "The property fails: C110_arrays_refuted (ValueError for all arrays with other than one component) and C110_none_refuted (None for any number of numerical distributions above one).",
 "C111": "The property fails for position -1 in every dimension above two.",
 "C114": "Refuted: M12 = -1, Gamma12 = 0 gives DeltaM = -2 (the sign of q/p is chosen by the principal root, so DeltaM > 0 only for positive real part; DeltaM_positive, DeltaGamma_B and S correct for it); phi12 is the phase of M12/Gamma12, not of -M12/Gamma12; x12Im is x12 sin(phi12).",
 "C115": "Refuted: C115_AFB_refuted (scalar and vector operators together), C115_FLhat_refuted (purely longitudinal decay).",
 "C123": "Refuted: C123_tensor_refuted for every non-zero tensor coefficient; C123_tensor_value shows the amplitude used.",
 "C128": "Refuted: FL, FLtau-style, AFB and I3 for lep='l' raise KeyError (parameter m_l); the other flavours succeed.",
 "C133": "refuted: the published value is half the CP asymmetry for every decay (C133_half_refuted), with a concrete decay whose asymmetry is 1 and whose published value is 1/2 (C133_instance_refuted)",
 "C139": "Depends on the dependency wilson (not in the repository): proved for predictions if set_option changes options and cache both in place or replaces both, proved for every history if it replaces both, proved for every variant if the parameters stay the same; refuted for the two mixed variants (wilson's own set_option updates the options in place and replaces the cache: C139_stale_refuted) and, for the owner's calls, whenever options are changed in place (C139_owner_refuted).",
 "C140": "Proved: get_wcxf, and the values of coefficients that occur in both dictionaries of get_wc; refuted: get_wc accepts an invalid nf_out without new physics (C140_unchecked_refuted). Missing: the dictionaries of get_wc have the keys of the sector in the theory given by eft, not in that of nf_out.",
 "C141": "Proved: the initial values are read back unchanged (C141_initial); refuted: they are returned in the basis they were given in, not in the flavio basis (C141_basis_refuted).",
 "C144": "Refuted for every D+ and Ds decay: br_dlnu and br_dslnu pass m_b and m_c as quark masses (C144_bc_masses: the result equals that of the B_c formula; C144_scalar_refuted: differs from the width). Without scalar operators the formula is right (C143_charm).",
 "C146": "Refuted for all lepton masses up to m_tau/16: the interference term -4 G(x) Re(CL CR*) lacks a factor m_l/m_tau, so coefficients with CL_total = CR give a negative branching ratio (C146_negative_refuted).",
 "C150": "Refuted: the completing coefficient has the wrong sign, so f+(0) + f0(0) = 2 chL sum a_j z0^j for all parameters (C150_plain_bcl_refuted, C150_plain_bcl_D_refuted); e.g. f+(0) = 1 and f0(0) = -1 (C150_opposite_sign_refuted).",
 "C153": "Refuted: at q2 = 0 the factor 1 + a_T23 is left out (C153_T23_refuted), and T1(0) differs from T2(0) for suitable parameters (C153_T1_T2_refuted).",
 "C154": "Refuted: B -> V BSZ and Lambda_b SSE overwrite two entries (C154_changed_refuted). Proved: exactly those two, with the constrained values; the result does not depend on their previous content and a second call gives the same (C154_bsz_writes, C154_sse_writes).",
 "C156": "Refuted: SSE3 equals SSE2, the third coefficient is ignored (C156_third_coefficient_ignored_refuted).",
 "C157": "Refuted: five registered implementations raise KeyError for every argument because their process dictionary lacks the transition (C157_unusable_refuted).",
 "C162": "Refuted: with phiWB = 1 the width is positive (C162_refuted): the universal part of the shift is added to flavour-off-diagonal couplings too.",
 "C163": "Refuted: the interference term is Re(g delta) without complex conjugation (C163_refuted).",
 "C165": "Refuted: e.g. the linearised ttH cross section with G = -1 (C165_refuted).",
 "C167": "Refuted: 0.702 and 5.434 in the outermost bins of the first energy (C167_refuted).",
 "C172": "Refuted: get_m returns m_d for the u quark and m_u for the d quark (C172_quark_mass_refuted); holds for leptons and the strange quark (C172_quark_mass_partial).",
 "C174": "Refuted for each system: thallium has Z=3, N=4 (those of lithium) instead of 81, 124, the molecules Z=N=1, so that the isovector part drops out (C174_nuclei_refuted, C174_nuclei_partial).",
 "C181": "Refuted: the amplitude contains alpha_e(MZ)/alpha_e(scale) for the top-quark (and new-physics) part only, but the prefactor contains alpha_e(scale)^2 for all of it, so the charm contribution depends on the scale (C181_refuted). C181_top_partial: without charm the statement holds.",
 "C183": "Refuted: bvll/lfv.py has no factor 1/2 for rho0, unlike bvll/observables.py, bvnunu.py and the B -> P decays (C183_refuted: the rates of rho0 and rho+ are equal for equal parameters).",
 "C189": "Refuted by a scalar and a vector coefficient together (C189_refuted): getS_lfv adds m1 X + m2 Y to both amplitudes with the same sign and without complex conjugation. C189_partial: with scalar or with vector coefficients alone the statement holds.",
 "C190": "Refuted: the contribution of vector coefficients is m1 X + m2 Y instead of m1 X - m2 Y, so that for equal masses the vector current contributes and the axial-vector current does not (second part of C190_refuted).",
 "C192": "Refuted: Fhat_P lacks the term 1/12 of Fhat_S; it is -1/12 at threshold, where all other functions vanish, and at y = 1/2 pseudoscalar and photon operators together have a negative branching ratio (C192_refuted).",
 "C199": "Refuted: amplitudes_eff sets Peff and Seff for K_S only if l1 == l2, so that the observable raises UnboundLocalError for all inputs; nothing of the positive claim remains to be proved.",
 "C201": "Refuted: dBRdq2 returns for pi0 before it reads delta_EM, so that K+ -> pi0 l nu does not depend on it.",
 "C202": "Refuted: par['m_l'] is not a parameter (KeyError); lnC(K->pilnu) and all BR(K->pilnu) fail for all inputs.",
 "C205": "Refuted: the factor is 1/2 for the first and -1/2 for the second relation (the comment counts the sign of isospin, but not that of the exchange of chiralities); which of the two signs is right for the operators of the paper cannot be decided from the code.",
 "C207": "Refuted: the coefficients K4sc and K4s of the cosine of the azimuth are computed from imaginary parts of the interferences (as K3sc and K3s), where arXiv:1410.2115 has real parts; the distribution then takes negative values (C207_refuted). With real parts it is never negative (C207_real_parts_partial), and also where the cosine of the azimuth vanishes (C207_in_plane_partial).",
}
NA = {}
