(** * Model of flavio/physics/bdecays/bvnunu.py, bpnunu.py, bpll_lfv.py, bvll/lfv.py, bvgamma.py, flavio/physics/kdecays/kpinunu.py,
    of the loop functions in flavio/physics/bdecays/matrixelements.py 15-30 and 137-149, and of flavio/physics/bdecays/wilsoncoefficients.py 32-55, 154-196

    Floats are idealised as real numbers, complex numbers as pairs of them; [nintegrate] is the exact integral (Decays_Model).
    The parameters and form factors are fields of a record: a missing key is not modelled.  The Wilson coefficients of a sector are
    functions of the flavours; that [get_wc] returns a fresh dictionary, so that adding the contribution of the Standard Model in
    place is not seen by later calls, is C03/C11 (EFT_Model). *)
From Coq Require Import Reals.
From Coquelicot Require Import Complex RInt.
From Verif Require Import Base Basics_Model Angular_Model Decays_Model.
Set Implicit Arguments.
Local Open Scope R_scope.

(** ** wilsoncoefficients.py 32-55 [CL_SM]: s2w, Xt, alpha_e at the scale and alpha_e at 91.1876 GeV *)
Definition CL_SM (s2w Xt alpha_scale alpha_mZ : R) : R := - Xt / s2w * alpha_mZ / alpha_scale.

(** the python [sum] over [for nu1 in lep for nu2 in lep] *)
Definition sum (l : list R) : R := fold_left Rplus l 0.
Definition lep : list lep3 := [Le; Lmu; Ltau].
Definition sum_nunu (f : lep3 -> lep3 -> R) : R := sum (flat_map (fun nu1 => map (fun nu2 => f nu1 nu2) lep) lep).

(** ** bvnunu.py and bpnunu.py: masses, lifetime, G_F, alpha_e at the scale, V_tb V_ti^*, sin^2 theta_W, X_t, alpha_e(m_Z), the name of the
    light meson, form factors, Wilson coefficients CL and CR of new physics for two flavours *)
Record nunu := NuNu { n_mB : R; n_mM : R; n_tau : R; n_GF : R; n_alpha : R; n_xit : C; n_s2w : R; n_Xt : R; n_alphaZ : R; n_meson : string;
  n_ff : R -> ffkey -> R; n_CL : lep3 -> lep3 -> C; n_CR : lep3 -> lep3 -> C }.
Section Nunu.
  Variable d : nunu.
  (** bvnunu.py 9-15, bpnunu.py 8-14 *)
  Definition nunu_prefactor : C := (RtoC (4 * n_GF d / sqrt 2)%R * n_xit d * RtoC (n_alpha d)%R / RtoC (4 * PI)%R)%C.
  (** bvnunu.py 21-35, bpnunu.py 20-34: the coefficients with the contribution of the Standard Model *)
  Definition nunu_wceff (nu1 nu2 : lep3) : wckey -> C :=
    let CL := if lep3_eqb nu1 nu2 then (n_CL d nu1 nu2 + RtoC (CL_SM (n_s2w d) (n_Xt d) (n_alpha d) (n_alphaZ d)))%C else n_CL d nu1 nu2 in
    get_wceff_nunu CL (n_CR d nu1 nu2).
  (** bvnunu.py 37-44 [bvnunu_obs] *)
  Definition bvnunu_J (q2 : R) (nu1 nu2 : lep3) : angcoeffs :=
    angularcoeffs_general_v (helicity_amps_v q2 (n_mB d) (n_mM d) 4 0 0 0 (n_ff d q2) (nunu_wceff nu1 nu2) nunu_prefactor) q2 (n_mB d) (n_mM d) 0 0.
  (** bpnunu.py 36-43 [bpnunu_obs] *)
  Definition bpnunu_J (q2 : R) (nu1 nu2 : lep3) : pcoeffs :=
    angularcoeffs_general_p (helicity_amps_p q2 (n_mB d) (n_mM d) 4 0 0 0 (n_ff d q2) (nunu_wceff nu1 nu2) nunu_prefactor) q2 (n_mB d) (n_mM d) 0 0.
  (** bvnunu.py 46-55, the observables dBR/dq2(B->Vnunu) *)
  Definition bvnunu_dbrdq2_summed (q2 : R) : R :=
    let dbrdq2 := n_tau d * sum_nunu (fun nu1 nu2 => dGdq2 (bvnunu_J q2 nu1 nu2)) in
    if (n_meson d =? "rho0")%string then dbrdq2 / 2 else dbrdq2.
  (** 57-61 *)
  Definition bvnunu_fl_num_summed (q2 : R) : R := sum_nunu (fun nu1 nu2 => - bvnunu_J q2 nu1 nu2 J2c).
  (** 63-71 FL(B->Vnunu) *)
  Definition bvnunu_fl_summed (q2 : R) : R :=
    let num := bvnunu_fl_num_summed q2 in
    let den := sum_nunu (fun nu1 nu2 => dGdq2 (bvnunu_J q2 nu1 nu2)) in
    if Req_EM_T den 0 then 0 else num / den.
  (** 73-81 <dBR/dq2>(B->Vnunu) *)
  Definition bvnunu_dbrdq2_int_summed (q2min q2max : R) : R := nintegrate bvnunu_dbrdq2_summed q2min q2max / (q2max - q2min).
  Definition bvnunu_fl_num_int_summed (q2min q2max : R) : R := nintegrate bvnunu_fl_num_summed q2min q2max / (q2max - q2min).
  (** 83-89 <FL>(B->Vnunu) *)
  Definition bvnunu_fl_int_summed (q2min q2max : R) : R :=
    let den := bvnunu_dbrdq2_int_summed q2min q2max / n_tau d in
    if Req_EM_T den 0 then 0 else bvnunu_fl_num_int_summed q2min q2max / den.
  (** 91-98 BR(B->Vnunu) *)
  Definition bvnunu_BRtot_summed : R := nintegrate bvnunu_dbrdq2_summed 0 ((n_mB d - n_mM d) ^ 2).
  (** bpnunu.py 45-54 dBR/dq2(B->Pnunu) *)
  Definition bpnunu_dbrdq2_summed (q2 : R) : R :=
    let dbrdq2 := n_tau d * sum_nunu (fun nu1 nu2 => P_dGdq2 (bpnunu_J q2 nu1 nu2)) in
    if (n_meson d =? "pi0")%string then dbrdq2 / 2 else dbrdq2.
  (** 56-59, 61-68 *)
  Definition bpnunu_dbrdq2_int_summed (q2min q2max : R) : R := nintegrate bpnunu_dbrdq2_summed q2min q2max / (q2max - q2min).
  Definition bpnunu_BRtot_summed : R := nintegrate bpnunu_dbrdq2_summed 0 ((n_mB d - n_mM d) ^ 2).
End Nunu.

(** ** kpinunu.py: xi_t, xi_c, |V_us|, s2w, X_t, alpha_e at the scale and at m_Z, m_c, alpha_s, deltaPcu, the two kappa, the Wilson coefficients.
    The power x**p with a fractional exponent is [Rpower]. *)
Record kpinunu := KPiNuNu { q_xit : C; q_xic : C; q_Vus : R; q_s2w : R; q_Xt : R; q_alpha : R; q_alphaZ : R; q_mc : R; q_alphas : R; q_dPcu : R;
  q_kplus : R; q_kL : R; q_CL : lep3 -> lep3 -> C; q_CR : lep3 -> lep3 -> C }.
Section Kpinunu.
  Variable d : kpinunu.
  (** 29-36 *)
  Definition kpinunu_charm : R := 379 / 1000 * Rpower (q_mc d / (13 / 10)) (2155 / 1000) * Rpower (q_alphas d / (1187 / 10000)) (- (1417 / 1000)).
  (** 7-27 *)
  Definition kpinunu_amplitude (nu1 nu2 : lep3) : C :=
    let CL := if lep3_eqb nu1 nu2 then (q_CL d nu1 nu2 + RtoC (CL_SM (q_s2w d) (q_Xt d) (q_alpha d) (q_alphaZ d)))%C else q_CL d nu1 nu2 in
    let X := (- (CL + q_CR d nu1 nu2) * RtoC (q_s2w d))%C in
    let amp := (q_xit d * X)%C in
    if lep3_eqb nu1 nu2 then (amp + q_xic d * RtoC (kpinunu_charm + q_dPcu d)%R * RtoC (q_Vus d ^ 4)%R)%C else amp.
  (** 38-52, for the charges 'plus' and 'long' *)
  Definition kappa_nu_tilde (kappa_tilde : R) : R :=
    let r_Vus := 1 / (225 / 1000) ^ 8 in
    let r_alpha := q_alpha d ^ 2 * (1279 / 10) ^ 2 in
    let r_s2w := (231 / 1000) ^ 2 / q_s2w d ^ 2 in
    kappa_tilde * r_Vus * r_alpha * r_s2w.
  (** 54-64 *)
  Definition br_kplus_pinunu (nu1 nu2 : lep3) : R := Cmod (kpinunu_amplitude nu1 nu2) ^ 2 * kappa_nu_tilde (q_kplus d) / q_Vus d ^ 2 / 3.
  Definition br_klong_pinunu (nu1 nu2 : lep3) : R := snd (kpinunu_amplitude nu1 nu2) ^ 2 * kappa_nu_tilde (q_kL d) / q_Vus d ^ 2 / 3.
  (** 66-76 *)
  Definition br_kplus_pinunu_summed : R := sum_nunu br_kplus_pinunu.
  Definition br_klong_pinunu_summed : R := sum_nunu br_klong_pinunu.
End Kpinunu.

(** ** Lepton flavour violating b -> q l1 l2 *)
(** the coefficients C9, C9', C10, C10', CS, CS', CP, CP' of a sector *)
Record lfvwc := LfvWC { w9 : C; w9p : C; w10 : C; w10p : C; wS : C; wSp : C; wP : C; wPp : C }.
(** wilsoncoefficients.py 154-174 [get_wceff_lfv] *)
Definition get_wceff_lfv (mb : R) (w : lfvwc) : wckey -> C := fun k =>
  match k with
  | W7 => RtoC 0 | W7p => RtoC 0
  | Wv => w9 w | Wvp => w9p w | Wa => w10 w | Wap => w10p w
  | Ws => (RtoC mb * wS w)%C | Wsp => (RtoC mb * wSp w)%C
  | Wp => (RtoC mb * wP w)%C | Wpp => (RtoC mb * wPp w)%C
  | Wt => RtoC 0 | Wtp => RtoC 0
  end.
(** [all(\[abs(v) < 1e-12 for v in wc.values()\])] *)
Definition small (v : C) : bool := if Rlt_dec (Cmod v) (1 / 10 ^ 12) then true else false.
Definition negligible (w : lfvwc) : bool := forallb small [w9 w; w9p w; w10 w; w10p w; wS w; wSp w; wP w; wPp w].
(** masses of the mesons, of the b quark, lifetime, prefactor 4 G_F / sqrt(2) V alpha / (4 pi), name, lepton masses, form factors, coefficients for the
    flavours l1, l2 (the coefficients of the sector q l1 l2; that other sectors are absent from the dictionary is C03) *)
Record lfvdecay := Lfv { f_mB : R; f_mM : R; f_mb : R; f_tau : R; f_GF : R; f_alpha : R; f_xit : C; f_meson : string; f_ml : lep3 -> R;
  f_ff : R -> ffkey -> R; f_wc : lep3 -> lep3 -> lfvwc }.
Section Lfv.
  Variable d : lfvdecay.
  (** bpll.py 16-22, bvll/amplitudes.py 18-24 *)
  Definition lfv_prefactor : C := (RtoC (4 * f_GF d / sqrt 2)%R * f_xit d * RtoC (f_alpha d)%R / RtoC (4 * PI)%R)%C.
  (** bpll_lfv.py 18-47 [helicity_amps], [bpll_obs] with [dGdq2] *)
  Definition bpll_lfv_obs (q2 : R) (l1 l2 : lep3) : R :=
    if Rle_dec q2 ((f_ml d l1 + f_ml d l2) ^ 2) then 0 else if Rlt_dec ((f_mB d - f_mM d) ^ 2) q2 then 0 else
    let h := helicity_amps_p q2 (f_mB d) (f_mM d) (f_mb d) 0 (f_ml d l1) (f_ml d l2) (f_ff d q2) (get_wceff_lfv (f_mb d) (f_wc d l1 l2)) lfv_prefactor in
    P_dGdq2 (angularcoeffs_general_p h q2 (f_mB d) (f_mM d) (f_ml d l1) (f_ml d l2)).
  (** 49-56 *)
  Definition bpll_lfv_dbrdq2 (q2 : R) (l1 l2 : lep3) : R :=
    let dBR := f_tau d * bpll_lfv_obs q2 l1 l2 in
    if (f_meson d =? "pi0")%string then dBR / 2 else dBR.
  (** 58-67 *)
  Definition bpll_lfv_int (q2min q2max : R) (l1 l2 : lep3) : R :=
    if negligible (f_wc d l1 l2) then 0 else nintegrate (fun q2 => bpll_lfv_dbrdq2 q2 l1 l2) q2min q2max / (q2max - q2min).
  (** 72-81 BR(B->Pl1l2), 83-95 BR(B->Pl1l2,l2l1) *)
  Definition bpll_lfv_tot (l1 l2 : lep3) : R :=
    let q2max := (f_mB d - f_mM d) ^ 2 in let q2min := (f_ml d l1 + f_ml d l2) ^ 2 in
    bpll_lfv_int q2min q2max l1 l2 * (q2max - q2min).
  Definition bpll_lfv_comb (l1 l2 : lep3) : R :=
    let q2max := (f_mB d - f_mM d) ^ 2 in let q2min := (f_ml d l1 + f_ml d l2) ^ 2 in
    (bpll_lfv_int q2min q2max l1 l2 + bpll_lfv_int q2min q2max l2 l1) * (q2max - q2min).
  (** bvll/lfv.py 9-19 [prefactor] *)
  Definition bvll_lfv_prefactor (q2 : R) (l1 l2 : lep3) : C :=
    if Rle_dec q2 ((f_ml d l1 + f_ml d l2) ^ 2) then RtoC 0 else lfv_prefactor.
  (** 21-45 [helicity_amps], [bvlilj_obs] with [dGdq2] *)
  Definition bvlilj_obs (q2 : R) (l1 l2 : lep3) : R :=
    if Rlt_dec q2 ((f_ml d l1 + f_ml d l2) ^ 2) then 0 else if Rlt_dec ((f_mB d - f_mM d) ^ 2) q2 then 0 else
    let h := helicity_amps_v q2 (f_mB d) (f_mM d) (f_mb d) 0 (f_ml d l1) (f_ml d l2) (f_ff d q2) (get_wceff_lfv (f_mb d) (f_wc d l1 l2)) (bvll_lfv_prefactor q2 l1 l2) in
    dGdq2 (angularcoeffs_general_v h q2 (f_mB d) (f_mM d) (f_ml d l1) (f_ml d l2)).
  (** 47-50, 52-67 BR(B->Vl1l2) *)
  Definition bvll_lfv_BR_tot (l1 l2 : lep3) : R :=
    if negligible (f_wc d l1 l2) then 0 else
    let q2max := (f_mB d - f_mM d) ^ 2 in let q2min := (f_ml d l1 + f_ml d l2) ^ 2 in
    f_tau d * nintegrate (fun q2 => bvlilj_obs q2 l1 l2) q2min q2max.
End Lfv.

(** ** bvgamma.py *)
(** the dictionary with the keys 'L' and 'R' *)
Record lr := LR { aL : C; aR : C }.
(** for the decay (false) or the conjugate decay (true): prefactor (16-26), C7eff, C7effp and delta_C7 after conjugation (39-52), the form factor T1 at q2 = 0,
    the ratio [prefactor_helicityamps] (28-36), the amplitudes ('mi','V') and ('pl','V') of spectator scattering and of the subleading effects at q2 = 0.001;
    lifetime, DeltaGamma/Gamma, q/p *)
Record vgamma := VGamma { g_N : bool -> C; g_C7 : bool -> C; g_C7p : bool -> C; g_dC7 : bool -> C; g_T1 : bool -> R; g_Nh : C;
  g_ss : bool -> C * C; g_sub : bool -> C * C; g_tau : R; g_dGoG : R; g_qp : C }.
Section Vgamma.
  Variable d : vgamma.
  (** 39-56 *)
  Definition amps_ff (cp : bool) : lr :=
    {| aL := (g_N d cp * (g_C7 d cp + g_dC7 d cp) * RtoC (g_T1 d cp))%C; aR := (g_N d cp * g_C7p d cp * RtoC (g_T1 d cp))%C |}.
  (** 58-78: the pair is (mi, pl) *)
  Definition amps_hel (m : C * C) : lr := {| aL := (- g_Nh d * fst m)%C; aR := (g_Nh d * snd m)%C |}.
  Definition lr_add (a b : lr) : lr := {| aL := (aL a + aL b)%C; aR := (aR a + aR b)%C |}.
  (** 80-93 [amps], [amps_bar] *)
  Definition amps_vg : lr := lr_add (lr_add (amps_ff false) (amps_hel (g_ss d false))) (amps_hel (g_sub d false)).
  Definition amps_vg_bar : lr :=
    let a := lr_add (lr_add (amps_ff true) (amps_hel (g_ss d true))) (amps_hel (g_sub d true)) in {| aL := aR a; aR := aL a |}.
  (** 101-105 *)
  Definition Gamma_vg (a : lr) : R := Cmod (aL a) ^ 2 + Cmod (aR a) ^ 2.
  Definition Gamma_CPaverage (a a_bar : lr) : R := (Gamma_vg a + Gamma_vg a_bar) / 2.
  (** 107-114; the division of numpy numbers by zero gives nan, it is excluded in the theorems *)
  Definition vg_BR : R := g_tau d * Gamma_CPaverage amps_vg amps_vg_bar.
  Definition vg_ACP : R := (Gamma_vg amps_vg - Gamma_vg amps_vg_bar) / (Gamma_vg amps_vg + Gamma_vg amps_vg_bar).
  (** 116-122 *)
  Definition S_A_complex : C :=
    let a := amps_vg in let a_bar := amps_vg_bar in
    (- g_qp d * (aL a * Cconj (aL a_bar) + aR a * Cconj (aR a_bar)) / RtoC (Gamma_CPaverage a a_bar))%C.
  (** 124-134 *)
  Definition vg_S : R := snd S_A_complex.
  Definition vg_ADeltaGamma : R := fst S_A_complex.
  Definition vg_BR_timeint : R := let y := g_dGoG d / 2 in (1 - vg_ADeltaGamma * y) / (1 - y ^ 2) * vg_BR.
End Vgamma.

(** ** matrixelements.py *)
(** 15-30 [h], for s >= 0, mq >= 0 and mu > 0; the logarithm of zero raises ValueError *)
Definition loop_h (s mq mu : R) : result C :=
  if Req_EM_T mq 0 then
    if Req_EM_T s 0 then Err ValueError
    else Ok (RtoC (8 / 27) + RtoC 4 * Ci * RtoC PI / RtoC 9 + RtoC (8 * ln mu / 9) - RtoC (4 * ln s / 9))%C
  else if Req_EM_T s 0 then Ok (RtoC (- 4 / 9 * (1 + ln (mq ^ 2 / mu ^ 2))))
  else
    let z := 4 * mq ^ 2 / s in
    let A := if Rlt_dec 1 z then RtoC (atan (1 / sqrt (z - 1))) else (RtoC (ln ((1 + sqrt (1 - z)) / sqrt z)) - Ci * RtoC PI / RtoC 2)%C in
    Ok (RtoC (- 4 / 9 * ln (mq ^ 2 / mu ^ 2) + 8 / 27 + 4 / 9 * z) - RtoC (4 / 9 * (2 + z) * sqrt (Rabs (z - 1))) * A)%C.
(** 137-149 [F_87], for sh >= 0 *)
Definition F_87 (Lmu sh : R) : C :=
  if Req_EM_T sh 0 then (RtoC (- 4) * (RtoC (33 + 24 * Lmu) + RtoC 6 * Ci * RtoC PI - RtoC (2 * PI ^ 2)) / RtoC 27)%C
  else (RtoC (- 32 / 9 * Lmu + 8 / 27 * PI ^ 2 - 44 / 9) - RtoC (8 / 9) * Ci * RtoC PI
        + RtoC ((4 / 3 * PI ^ 2 - 40 / 3) * sh + (32 / 9 * PI ^ 2 - 316 / 9) * sh ^ 2
        + (200 / 27 * PI ^ 2 - 658 / 9) * sh ^ 3 - 8 / 9 * ln sh * (sh + sh ^ 2 + sh ^ 3)))%C.
