(** * Model of flavio/physics/bdecays/lambdablambdall.py and lambdablambda1520ll.py

    Floats are real numbers, complex numbers pairs of them.  Form factors, effective Wilson coefficients, CKM combination, running quantities, the subleading hadronic contributions
    (auxiliary quantities) are parameters.  The warnings for q2 near narrow charmonium are not modelled. *)
From Coq Require Import Reals.
From Coquelicot Require Import Coquelicot.
From Coq Require Import String List.
From Verif Require Import Base Basics_Model Angular_Model Decays_Model.
Import ListNotations.
Local Open Scope R_scope.

Inductive chir := cL | cR.
(** ** lambdablambdall.py *)
(** 11-34 [helicity_amps]: the amplitudes with positive names used in [transverity_amps] ('+V-+' is [hVp] ...); the others, equal up to the sign, are not used *)
Record hel12 := Hel12 { h0V : R; hpV : R; h0A : R; hpA : R; h0T : R; hpT : R; h0T5 : R; hpT5 : R }.
Definition helicity_amps (q2 mLb mL : R) (ff : string -> R) : hel12 :=
  let sp := (mLb + mL) ^ 2 - q2 in let sm := (mLb - mL) ^ 2 - q2 in
  {| h0V := ff "fV0"%string * (mLb + mL) / sqrt q2 * sqrt sm;
     hpV := - ff "fVperp"%string * sqrt (2 * sm);
     h0A := ff "fA0"%string * (mLb - mL) / sqrt q2 * sqrt sp;
     hpA := - ff "fAperp"%string * sqrt (2 * sp);
     h0T := - ff "fT0"%string * sqrt q2 * sqrt sm;
     hpT := ff "fTperp"%string * (mLb + mL) * sqrt (2 * sm);
     h0T5 := ff "fT50"%string * sqrt q2 * sqrt sp;
     hpT5 := - ff "fT5perp"%string * (mLb - mL) * sqrt (2 * sp) |}.
(** 36-61 [transverity_amps] *)
Record ta12 := Ta12 { perp1 : chir -> C; para1 : chir -> C; perp0 : chir -> C; para0 : chir -> C }.
Definition C910pl (wc : wckey -> C) (X : chir) : C := match X with cL => (wc Wv - wc Wa) + (wc Wvp - wc Wap) | cR => (wc Wv + wc Wa) + (wc Wvp + wc Wap) end%C.
Definition C910mi (wc : wckey -> C) (X : chir) : C := match X with cL => (wc Wv - wc Wa) - (wc Wvp - wc Wap) | cR => (wc Wv + wc Wa) - (wc Wvp + wc Wap) end%C.
Definition transverity_amps (ha : hel12) (q2 mqh : R) (wc : wckey -> C) (prefactor : C) : ta12 :=
  {| perp1 := fun X => (prefactor * (RtoC (sqrt 2) * (C910pl wc X * RtoC (hpV ha) - RtoC (2 * mqh) * (wc W7 + wc W7p) / RtoC q2 * RtoC (hpT ha))))%C;
     para1 := fun X => (prefactor * (- RtoC (sqrt 2) * (C910mi wc X * RtoC (hpA ha) + RtoC (2 * mqh) * (wc W7 - wc W7p) / RtoC q2 * RtoC (hpT5 ha))))%C;
     perp0 := fun X => (prefactor * (RtoC (sqrt 2) * (C910pl wc X * RtoC (h0V ha) - RtoC (2 * mqh) * (wc W7 + wc W7p) / RtoC q2 * RtoC (h0T ha))))%C;
     para0 := fun X => (prefactor * (- RtoC (sqrt 2) * (C910mi wc X * RtoC (h0A ha) + RtoC (2 * mqh) * (wc W7 - wc W7p) / RtoC q2 * RtoC (h0T5 ha))))%C |}.
(** 63-102 [angular_coefficients] *)
Record kcoef := Kcoef { K1ss : R; K1cc : R; K1c : R; K2ss : R; K2cc : R; K2c : R; K3sc : R; K3s : R; K4sc : R; K4s : R }.
Definition sq (z : C) : R := Cmod z ^ 2.
Definition angular_coefficients (ta : ta12) (alpha : R) : kcoef :=
  let p1 := perp1 ta in let a1 := para1 ta in let p0 := perp0 ta in let a0 := para0 ta in
  {| K1ss := 1 / 4 * (sq (p1 cR) + sq (p1 cL) + sq (a1 cR) + sq (a1 cL) + 2 * sq (p0 cR) + 2 * sq (p0 cL) + 2 * sq (a0 cR) + 2 * sq (a0 cL));
     K1cc := 1 / 2 * (sq (p1 cR) + sq (p1 cL) + sq (a1 cR) + sq (a1 cL));
     K1c := - Re (p1 cR * Cconj (a1 cR) - p1 cL * Cconj (a1 cL))%C;
     K2ss := alpha / 2 * Re (p1 cR * Cconj (a1 cR) + RtoC 2 * p0 cR * Cconj (a0 cR) + p1 cL * Cconj (a1 cL) + RtoC 2 * p0 cL * Cconj (a0 cL))%C;
     K2cc := alpha * Re (p1 cR * Cconj (a1 cR) + p1 cL * Cconj (a1 cL))%C;
     K2c := - alpha / 2 * (sq (p1 cR) - sq (p1 cL) + sq (a1 cR) - sq (a1 cL));
     K3sc := alpha / sqrt 2 * Im (p1 cR * Cconj (p0 cR) - a1 cR * Cconj (a0 cR) + p1 cL * Cconj (p0 cL) - a1 cL * Cconj (a0 cL))%C;
     K3s := alpha / sqrt 2 * Im (p1 cR * Cconj (a0 cR) - a1 cR * Cconj (p0 cR) - p1 cL * Cconj (a0 cL) + a1 cL * Cconj (p0 cL))%C;
     K4sc := alpha / sqrt 2 * Im (p1 cR * Cconj (a0 cR) - a1 cR * Cconj (p0 cR) + p1 cL * Cconj (a0 cL) - a1 cL * Cconj (p0 cL))%C;
     K4s := alpha / sqrt 2 * Im (p1 cR * Cconj (p0 cR) - a1 cR * Cconj (a0 cR) - p1 cL * Cconj (p0 cL) + a1 cL * Cconj (a0 cL))%C |}.
(** 165-178 *)
Definition l_dGdq2 (K : kcoef) : R := 2 * K1ss K + K1cc K.
Definition l_FL_num (K : kcoef) : R := 2 * K1ss K - K1cc K.
Definition l_AFBl_num (K : kcoef) : R := 3 / 2 * K1c K.
Definition l_AFBh_num (K : kcoef) : R := K2ss K + K2cc K / 2.
Definition l_AFBlh_num (K : kcoef) : R := 3 / 4 * K2c K.
(** par['m_'+lep], m_Lambdab, m_Lambda, lifetime, mb, 'Lambda->ppi alpha_-', form factors, effective coefficients (of q2), xi_t, GF, alpha_e, and the subleading contributions at low and high q2 *)
Record lb := Lb { b_ml : R; b_mLb : R; b_mL : R; b_tau : R; b_mb : R; b_alpha : R; b_ff : R -> string -> R; b_wc : R -> wckey -> C; b_xi : C; b_GF : R; b_aem : R; b_low : R -> ta12; b_high : R -> ta12 }.
(** 108-114 [prefactor]; la_K ** (1/4) is the root of the root *)
Definition l_prefactor (d : lb) (q2 : R) : C :=
  let la := lambda_K (b_mLb d ^ 2) (b_mL d ^ 2) q2 in
  (RtoC (b_GF d) * b_xi d * RtoC (b_aem d * sqrt q2 * sqrt (sqrt la) / sqrt (3 * 2 * b_mLb d ^ 3 * PI ^ 5) / 32))%C.
(** 117-151 [get_transverity_amps_ff], [get_subleading], [get_transverity_amps] (cp_conjugate is not used by an observable) *)
Definition ta_add (a b : ta12) : ta12 :=
  Ta12 (fun X => perp1 a X + perp1 b X)%C (fun X => para1 a X + para1 b X)%C (fun X => perp0 a X + perp0 b X)%C (fun X => para0 a X + para0 b X)%C.
Definition get_transverity_amps (d : lb) (q2 : R) : ta12 :=
  let t := transverity_amps (helicity_amps q2 (b_mLb d) (b_mL d) (b_ff d q2)) q2 (b_mb d) (b_wc d q2) (l_prefactor d q2) in
  if Rle_dec q2 9 then ta_add t (b_low d q2) else if Rlt_dec 14 q2 then ta_add t (b_high d q2) else t.
(** 154-163 [get_obs] *)
Definition l_get_obs (f : kcoef -> R) (d : lb) (q2 : R) : R :=
  if Rlt_dec q2 (4 * b_ml d ^ 2) then 0 else if Rlt_dec ((b_mLb d - b_mL d) ^ 2) q2 then 0 else f (angular_coefficients (get_transverity_amps d q2) (b_alpha d)).
(** 180-192 *)
Definition l_dbrdq2 (d : lb) (q2 : R) : R := b_tau d * l_get_obs l_dGdq2 d q2.
Definition l_dbrdq2_int (d : lb) (q2min q2max : R) : R := nintegrate (l_dbrdq2 d) q2min q2max / (q2max - q2min).
Definition l_obs_int (f : kcoef -> R) (d : lb) (q2min q2max : R) : R := nintegrate (l_get_obs f d) q2min q2max.
(** 206-222 *)
Definition l_ratio (num den : kcoef -> R) (d : lb) (q2 : R) : R := ratio0 (l_get_obs num d q2) (l_get_obs den d q2).
Definition l_int_ratio (num den : kcoef -> R) (d : lb) (q2min q2max : R) : R := ratio0 (l_obs_int num d q2min q2max) (l_obs_int den d q2min q2max).

(** ** lambdablambda1520ll.py *)
(** 11-56 [helicity_amps]: the amplitudes used below (those with t are not used) *)
Record hel32 := Hel32 { g0V : R; gpV1 : R; gpV3 : R; g0A : R; gpA1 : R; gpA3 : R; g0T : R; gpT1 : R; gpT3 : R; g0T5 : R; gpT51 : R; gpT53 : R }.
Definition helicity_amps32 (q2 mLb mL : R) (ff : string -> R) : hel32 :=
  let sp := (mLb + mL) ^ 2 - q2 in let sm := (mLb - mL) ^ 2 - q2 in
  {| g0V := - ff "fV0"%string * (mLb + mL) / sqrt q2 * (sm * sqrt sp) / (sqrt 6 * mL);
     gpV1 := - ff "fVperp"%string * (sm * sqrt sp) / (sqrt 3 * mL);
     gpV3 := ff "fVg"%string * sqrt sp;
     g0A := - ff "fA0"%string * (mLb - mL) / sqrt q2 * (sp * sqrt sm) / (sqrt 6 * mL);
     gpA1 := ff "fAperp"%string * (sp * sqrt sm) / (sqrt 3 * mL);
     gpA3 := - ff "fAg"%string * sqrt sm;
     g0T := ff "fT0"%string * sqrt q2 * (sm * sqrt sp) / (sqrt 6 * mL);
     gpT1 := ff "fTperp"%string * (mLb + mL) * (sm * sqrt sp) / (sqrt 3 * mL);
     gpT3 := - ff "fTg"%string * sqrt sp;
     g0T5 := - ff "fT50"%string * sqrt q2 * (sp * sqrt sm) / (sqrt 6 * mL);
     gpT51 := ff "fT5perp"%string * (mLb - mL) * (sp * sqrt sm) / (sqrt 3 * mL);
     gpT53 := - ff "fT5g"%string * sqrt sm |}.
(** 59-87 [transversity_amps] *)
Record ta32 := Ta32 { Bperp1 : chir -> C; Bpara1 : chir -> C; Aperp1 : chir -> C; Apara1 : chir -> C; Aperp0 : chir -> C; Apara0 : chir -> C }.
Definition transversity_amps32 (ha : hel32) (q2 mqh : R) (wc : wckey -> C) (prefactor : C) : ta32 :=
  let pe X v t := (prefactor * (RtoC (sqrt 2) * (C910pl wc X * RtoC v - RtoC (2 * mqh) * (wc W7 + wc W7p) / RtoC q2 * RtoC t)))%C in
  let pa X v t := (prefactor * (- RtoC (sqrt 2) * (C910mi wc X * RtoC v + RtoC (2 * mqh) * (wc W7 - wc W7p) / RtoC q2 * RtoC t)))%C in
  {| Bperp1 := fun X => pe X (gpV3 ha) (gpT3 ha); Bpara1 := fun X => pa X (gpA3 ha) (gpT53 ha); Aperp1 := fun X => pe X (gpV1 ha) (gpT1 ha); Apara1 := fun X => pa X (gpA1 ha) (gpT51 ha);
     Aperp0 := fun X => pe X (g0V ha) (g0T ha); Apara0 := fun X => pa X (g0A ha) (g0T5 ha) |}.
(** 90-158 [angular_coefficients] *)
Record lcoef := Lcoef { L1c : R; L1cc : R; L1ss : R; L2c : R; L2cc : R; L2ss : R; L3ss : R; L4ss : R; L5s : R; L5sc : R; L6s : R; L6sc : R }.
Definition angular_coefficients32 (ta : ta32) (br : R) : lcoef :=
  let re a b X := Re (a ta X * Cconj (b ta X))%C in let im a b X := Im (a ta X * Cconj (b ta X))%C in let ab a X := sq (a ta X) in
  {| L1c := - 2 * br * (re Aperp1 Apara1 cL - re Aperp1 Apara1 cR);
     L1cc := br * (ab Apara1 cL + ab Aperp1 cL + ab Apara1 cR + ab Aperp1 cR);
     L1ss := br / 2 * (2 * (ab Apara0 cL + ab Aperp0 cL) + ab Apara1 cL + ab Aperp1 cL + 2 * (ab Apara0 cR + ab Aperp0 cR) + ab Apara1 cR + ab Aperp1 cR);
     L2c := - br / 2 * (re Aperp1 Apara1 cL + 3 * re Bperp1 Bpara1 cL - re Aperp1 Apara1 cR - 3 * re Bperp1 Bpara1 cR);
     L2cc := br / 4 * (ab Apara1 cL + ab Aperp1 cL + 3 * (ab Bpara1 cL + ab Bperp1 cL) + ab Apara1 cR + ab Aperp1 cR + 3 * (ab Bpara1 cR + ab Bperp1 cR));
     L2ss := br / 8 * (2 * ab Apara0 cL + ab Apara1 cL + 2 * ab Aperp0 cL + ab Aperp1 cL + 3 * (ab Bpara1 cL + ab Bperp1 cL)
       - 2 * sqrt 3 * re Bpara1 Apara1 cL + 2 * sqrt 3 * re Bperp1 Aperp1 cL
       + 2 * ab Apara0 cR + ab Apara1 cR + 2 * ab Aperp0 cR + ab Aperp1 cR + 3 * (ab Bpara1 cR + ab Bperp1 cR)
       - 2 * sqrt 3 * re Bpara1 Apara1 cR + 2 * sqrt 3 * re Bperp1 Aperp1 cR);
     L3ss := sqrt 3 / 2 * br * (re Bpara1 Apara1 cL - re Bperp1 Aperp1 cL + re Bpara1 Apara1 cR - re Bperp1 Aperp1 cR);
     L4ss := sqrt 3 / 2 * br * (im Bperp1 Apara1 cL - im Bpara1 Aperp1 cL + im Bperp1 Apara1 cR - im Bpara1 Aperp1 cR);
     L5s := sqrt (3 / 2) * br * (re Bperp1 Apara0 cL - re Bpara1 Aperp0 cL - re Bperp1 Apara0 cR + re Bpara1 Aperp0 cR);
     L5sc := sqrt (3 / 2) * br * (- re Bpara1 Apara0 cL + re Bperp1 Aperp0 cL - re Bpara1 Apara0 cR + re Bperp1 Aperp0 cR);
     L6s := sqrt (3 / 2) * br * (im Bpara1 Apara0 cL - im Bperp1 Aperp0 cL - im Bpara1 Apara0 cR + im Bperp1 Aperp0 cR);
     L6sc := - sqrt (3 / 2) * br * (im Bperp1 Apara0 cL - im Bpara1 Aperp0 cL + im Bperp1 Apara0 cR - im Bpara1 Aperp0 cR) |}.
(** 216-247; [S] and [A] for the coefficient [g] *)
Definition m_dGdq2 (L Lc : lcoef) : R := (L1cc L + 2 * L1ss L + 2 * L2cc L + 4 * L2ss L + 2 * L3ss L + L1cc Lc + 2 * L1ss Lc + 2 * L2cc Lc + 4 * L2ss Lc + 2 * L3ss Lc) / 6.
Definition m_S (g : lcoef -> R) (L Lc : lcoef) : R := (g L + g Lc) / 2.
Definition m_A (g : lcoef -> R) (L Lc : lcoef) : R := (g L - g Lc) / 2.
Definition m_FL_num (L Lc : lcoef) : R := (- L1cc L + 2 * L1ss L - 2 * L2cc L + 4 * L2ss L + 2 * L3ss L - L1cc Lc + 2 * L1ss Lc - 2 * L2cc Lc + 4 * L2ss Lc + 2 * L3ss Lc) / 6.
Definition m_AFBl_num (L Lc : lcoef) : R := (L1c L + 2 * L2c L + L1c Lc + 2 * L2c Lc) / 4.
Definition m_AFBh (L Lc : lcoef) : R := 0.
Definition m_AFBlh (L Lc : lcoef) : R := 0.
(** the data: as above; effective coefficients and xi_t of the decay and of the conjugate decay; BR(Lambda(1520)->NKbar)_exp *)
Record lb32 := Lb32 { e_ml : R; e_mLb : R; e_mL : R; e_tau : R; e_mb : R; e_br : R; e_ff : R -> string -> R; e_wc : bool -> R -> wckey -> C; e_xi : bool -> C; e_GF : R; e_aem : R }.
(** 161-197 *)
Definition m_prefactor (d : lb32) (cp : bool) (q2 : R) : C :=
  let la := lambda_K (e_mLb d ^ 2) (e_mL d ^ 2) q2 in
  (RtoC (e_GF d) * e_xi d cp * RtoC (e_aem d * sqrt q2 * sqrt (sqrt la) / sqrt (3 * 2 * e_mLb d ^ 3 * PI ^ 5) / 32))%C.
Definition get_transversity_amps32 (d : lb32) (q2 : R) (cp : bool) : ta32 :=
  transversity_amps32 (helicity_amps32 q2 (e_mLb d) (e_mL d) (e_ff d q2)) q2 (e_mb d) (e_wc d cp q2) (m_prefactor d cp q2).
(** 200-212 [get_obs] *)
Definition m_get_obs (f : lcoef -> lcoef -> R) (d : lb32) (q2 : R) : R :=
  if Rlt_dec q2 (4 * e_ml d ^ 2) then 0 else if Rlt_dec ((e_mLb d - e_mL d) ^ 2) q2 then 0 else
  let br := e_br d / 2 in
  f (angular_coefficients32 (get_transversity_amps32 d q2 false) br) (angular_coefficients32 (get_transversity_amps32 d q2 true) br).
(** 250-289 *)
Definition m_obs_int (f : lcoef -> lcoef -> R) (d : lb32) (q2min q2max : R) : R := nintegrate (m_get_obs f d) q2min q2max.
Definition m_dbrdq2 (d : lb32) (q2 : R) : R := e_tau d * m_get_obs m_dGdq2 d q2.
Definition m_dbrdq2_int (d : lb32) (q2min q2max : R) : R := e_tau d * m_obs_int m_dGdq2 d q2min q2max / (q2max - q2min).
Definition m_ratio (num den : lcoef -> lcoef -> R) (d : lb32) (q2 : R) : R := ratio0 (m_get_obs num d q2) (m_get_obs den d q2).
Definition m_int_ratio (num den : lcoef -> lcoef -> R) (d : lb32) (q2min q2max : R) : R := ratio0 (m_obs_int num d q2min q2max) (m_obs_int den d q2min q2max).
