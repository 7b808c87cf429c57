(** * Model of the semileptonic B decay observables built on the angular coefficients: flavio/math/integrate.py 15-19 and
    31-39, flavio/physics/bdecays/bvlnu.py, bplnu.py, bpll.py 78-213, bvll/observables.py 208-416, bvll/observables_bs.py

    Floats are idealised as real numbers, numerical integrals as exact (Riemann) integrals.  The meson, quark and lepton masses, the
    CKM element, form factors, Wilson coefficients and (for neutral currents) amplitudes are data of the decay under consideration: the
    lookups [par\['m_'+B\]] etc. always succeed, except [par\['m_l'\]], which does not exist.  Warnings, citations and caches are dropped. *)
From Coq Require Import Reals.
From Coquelicot Require Import Coquelicot.
From Verif Require Import Base Basics_Model Angular_Model.
Local Open Scope R_scope.

(** ** flavio/math/integrate.py *)
(** 15-19 *)
Definition nintegrate (f : R -> R) (a b : R) : R := RInt f a b.
(** 31-39 *)
Definition nintegrate_complex (f : R -> C) (a b : R) : C :=
  (RtoC (RInt (fun x => fst (f x)) a b) + Ci * RtoC (RInt (fun x => snd (f x)) a b))%C.
(** bvll/observables.py 384-398 *)
Definition nintegrate_pole (f : R -> R) (q2min q2max : R) : R :=
  if Rle_dec q2min (1 / 10) then
    if Rlt_dec 0 q2min then
      let q20 := q2min in
      let f_q20 := f q20 in
      nintegrate (fun q2 => f q2 - f_q20 * q20 / q2) q2min q2max + f_q20 * q20 * ln (q2max / q2min)
    else nintegrate f q2min q2max
  else nintegrate f q2min q2max.
(** [if num == 0: return 0] and [return num/den] *)
Definition ratio0 (num den : R) : R := if Req_EM_T num 0 then 0 else num / den.

(** ** Charged currents: bvlnu.py and bplnu.py *)
Inductive lep3 := Le | Lmu | Ltau.
(** the argument [lep]: 'e', 'mu', 'tau' or 'l' *)
Inductive lepton := Lep (l : lep3) | Ll.
Definition lep3_eqb (a b : lep3) : bool := match a, b with Le, Le => true | Lmu, Lmu => true | Ltau, Ltau => true | _, _ => false end.
(** 'L', 'T' or None *)
Inductive pol := PolL | PolT | PolAll.
(** the data of a decay B -> M l nu: masses of charged leptons, B and M, lifetime, quark masses mb and mlight, GF, CKM element, CVL of
    the Standard Model, Wilson coefficients CVL, CVR, CSR, CSL, CT of the sectors (lep, nu), form factors, and the name of M *)
Record lnu := Lnu { m_lep : lep3 -> R; m_B : R; m_M : R; tau_B : R; m_b : R; m_light : R; GF : R; Vij : C; CVLSM : R;
  wCVL : lep3 -> lep3 -> C; wCVR : lep3 -> lep3 -> C; wCSR : lep3 -> lep3 -> C; wCSL : lep3 -> lep3 -> C; wCT : lep3 -> lep3 -> C;
  form : R -> ffkey -> R; meson : string }.
(** par['m_'+lep] *)
Definition par_m_lep (d : lnu) (l : lepton) : result R := match l with Lep l => Ok (m_lep d l) | Ll => Err KeyError end.
(** [all(C == 0 for C in wc.values())] *)
Definition all_zero (wc : wckey -> C) : bool :=
  forallb (fun k => if Ceq_dec (wc k) (RtoC 0) then true else false) [Wv; Wvp; Wa; Wap; Ws; Wsp; Wp; Wpp; W7; W7p; Wt; Wtp].

Section Lnu.
  Variable d : lnu.
  (** bvlnu.py 20-38, bplnu.py 15-28 [prefactor] *)
  Definition prefactor (q2 : R) (lep : lep3) : C :=
    if Rle_dec q2 (m_lep d lep ^ 2) then RtoC 0 else (RtoC (4 * GF d / sqrt 2) * Vij d)%C.
  (** bvlnu.py 62-63, wilsoncoefficients.py 213-216 *)
  Definition wceff (lep nu : lep3) : wckey -> C :=
    get_wceff_fccc (if lep3_eqb lep nu then RtoC (CVLSM d) else RtoC 0) (wCVL d lep nu) (wCVR d lep nu) (wCSR d lep nu) (wCSL d lep nu) (wCT d lep nu).
  (** 59-80 [_get_angularcoeff] *)
  Definition _get_angularcoeff (q2 : R) (lep nu : lep3) : angcoeffs :=
    let wc := wceff lep nu in
    if negb (lep3_eqb lep nu) && all_zero wc then (fun _ => 0)
    else
      let h := helicity_amps_v q2 (m_B d) (m_M d) (m_b d) (m_light d) (m_lep d lep) 0 (form d q2) wc (prefactor q2 lep) in
      angularcoeffs_general_v h q2 (m_B d) (m_M d) (m_lep d lep) 0.
  (** 39-55 [get_angularcoeff] *)
  Definition get_angularcoeff (q2 : R) (lep : lep3) : angcoeffs := fun k =>
    _get_angularcoeff q2 lep Le k + _get_angularcoeff q2 lep Lmu k + _get_angularcoeff q2 lep Ltau k.
  (** 81-93 *)
  Definition vdGdq2 (J : angcoeffs) : R := 3 / 4 * (2 * J J1s + J J1c) - 1 / 4 * (2 * J J2s + J J2c).
  Definition dGdq2_L (J : angcoeffs) : R := 3 / 4 * J J1c - 1 / 4 * J J2c.
  Definition dGdq2_T (J : angcoeffs) : R := 3 / 2 * J J1s - 1 / 2 * J J2s.
  (** the keys of the dictionaries of angular functions *)
  Inductive trig := t1 | tc | tc2 | tcsq | tssq | ts2.
  (** 103-124; the dictionaries as lists of items *)
  Definition dG_dq2_dcosthl (J : angcoeffs) : list (trig * R) :=
    [(t1, 3 / 8 * (J J1c + 2 * J J1s)); (tc, 3 / 8 * (J J6c + 2 * J J6s)); (tc2, 3 / 8 * (J J2c + 2 * J J2s))].
  Definition dG_dq2_dcosthV (J : angcoeffs) : list (trig * R) :=
    [(tcsq, - 3 / 8 * (- 3 * J J1c + J J2c)); (tssq, - 3 / 8 * (- 3 * J J1s + J J2s))].
  Definition dG_dq2_dphi (J : angcoeffs) : list (trig * R) :=
    [(t1, 1 / (8 * PI) * (3 * J J1c + 6 * J J1s - J J2c - 2 * J J2s)); (tc2, 1 / (2 * PI) * J J3); (ts2, 1 / (2 * PI) * J J9)].
  (** 126-137 *)
  Definition _cos_angle_diff (costh : R) (a : trig) : R :=
    match a with t1 => 1 | tc => costh | tc2 => 2 * costh ^ 2 - 1 | tcsq => costh ^ 2 | tssq => 1 - costh ^ 2 | ts2 => 2 * costh * sqrt (1 - costh ^ 2) end.
  Definition _cos_angle_int (costh : R) (a : trig) : R :=
    match a with
    | t1 => costh | tc => costh ^ 2 / 2 | tc2 => 2 * costh ^ 3 / 3 - costh | tcsq => costh ^ 3 / 3 | tssq => costh - costh ^ 3 / 3
    | ts2 => - 2 / 3 * ((1 - costh ^ 2) * sqrt (1 - costh ^ 2))
    end.
  (** 139-147; the dictionaries have only the keys '1', 'c2' and 's2', the others are not used *)
  Definition _angle_diff (phi : R) (a : trig) : R := match a with t1 => 1 | tc2 => cos (2 * phi) | ts2 => sin (2 * phi) | _ => 0 end.
  Definition _angle_int (phi : R) (a : trig) : R := match a with t1 => phi | tc2 => sin (2 * phi) / 2 | ts2 => - cos (2 * phi) / 2 | _ => 0 end.
  (** [sum(\[y * (ang_max\[a\] - ang_min\[a\]) for a, y in dG.items()\])] and [sum(\[y * ang\[a\] for a, y in dG.items()\])] *)
  Definition sum_ang (dG : list (trig * R)) (ang : trig -> R) : R := fold_left (fun s ay => s + snd ay * ang (fst ay)) dG 0.
  (** 149-158 [obs_q2int] *)
  Definition obs_q2int (fct : R -> R) (lep : lepton) : result R :=
    do ml <- par_m_lep d lep; Ok (nintegrate fct (ml ^ 2) ((m_B d - m_M d) ^ 2)).
  (** 160-168 [kinem_allowed] *)
  Definition kinem_allowed (q2 : R) (lep : lep3) : bool :=
    if Rlt_dec q2 (m_lep d lep ^ 2) then false else if Rlt_dec ((m_B d - m_M d) ^ 2) q2 then false else true.
  (** 289-295 [BRfac] *)
  Definition BRfac : R := if (meson d =? "rho0")%string || (meson d =? "omega")%string then 1 / 2 else 1.
  (** 297-307 [dBRdq2_lep] *)
  Definition dBRdq2_lep (q2 : R) (lep : lep3) (A : pol) : R :=
    if negb (kinem_allowed q2 lep) then 0
    else
      let J := get_angularcoeff q2 lep in
      tau_B d * match A with PolAll => vdGdq2 J | PolL => dGdq2_L J | PolT => dGdq2_T J end * BRfac.
  (** 310-315 [dBRdq2] *)
  Definition dBRdq2 (q2 : R) (lep : lepton) (A : pol) : R :=
    match lep with Ll => (dBRdq2_lep q2 Le A + dBRdq2_lep q2 Lmu A) / 2 | Lep l => dBRdq2_lep q2 l A end.
  (** 320-323 [BR_binned] *)
  Definition BR_binned (q2min q2max : R) (lep : lepton) (A : pol) : R := nintegrate (fun q2 => dBRdq2 q2 lep A) q2min q2max.
  (** 417-430 [_BR_tot], [BR_tot] *)
  Definition _BR_tot (lep : lep3) (A : pol) : R := BR_binned (m_lep d lep ^ 2) ((m_B d - m_M d) ^ 2) (Lep lep) A.
  Definition BR_tot (lep : lepton) (A : pol) : R :=
    match lep with Ll => (_BR_tot Le A + _BR_tot Lmu A) / 2 | Lep l => _BR_tot l A end.
  (** 328-335 [BR_binned_tot_function] *)
  Definition BR_binned_tot (q2min q2max : R) (lep : lepton) (A : pol) : R := ratio0 (BR_binned q2min q2max lep A) (BR_tot lep A).
  (** 435-447 [BR_binned_leptonflavour], [BR_tot_leptonflavour] *)
  Definition BR_binned_leptonflavour (q2min q2max : R) (lnum lden : lepton) (A : pol) : R :=
    ratio0 (BR_binned q2min q2max lnum A) (BR_binned q2min q2max lden A).
  Definition BR_tot_leptonflavour (lnum lden : lepton) (A : pol) : R := ratio0 (BR_tot lnum A) (BR_tot lden A).
  (** 170-174 [FL_diff]; for lep = 'l' already [kinem_allowed] raises *)
  Definition FL_diff (q2 : R) (lep : lepton) : result R :=
    match lep with
    | Ll => Err KeyError
    | Lep l => Ok (if negb (kinem_allowed q2 l) then 0 else let J := get_angularcoeff q2 l in dGdq2_L J / vdGdq2 J)
    end.
  (** 177-182 [FL_binned] *)
  Definition FL_binned (q2min q2max : R) (lep : lepton) : R :=
    let num := nintegrate (fun q2 => dBRdq2 q2 lep PolL) q2min q2max in
    if Req_EM_T num 0 then 0 else num / nintegrate (fun q2 => dBRdq2 q2 lep PolAll) q2min q2max.
  (** 343-351 [FL_tot_function] *)
  Definition FL_tot (lep : lepton) : result R := do ml <- par_m_lep d lep; Ok (FL_binned (ml ^ 2) ((m_B d - m_M d) ^ 2) lep).
  (** 184-193 [Itot_norm]; [get_angularcoeff] is only called within [obs_q2int], which raises first for lep = 'l' *)
  Definition Itot_norm (fct_J : angcoeffs -> R) (lep : lepton) : result R :=
    match lep with
    | Ll => Err KeyError
    | Lep l =>
      do num <- obs_q2int (fun q2 => fct_J (get_angularcoeff q2 l)) lep;
      do den <- obs_q2int (fun q2 => vdGdq2 (get_angularcoeff q2 l)) lep;
      Ok (num / den)
    end.
  (** 353-372 *)
  Definition FLt_tot (lep : lepton) : result R := Itot_norm (fun J => - J J2c) lep.
  Definition AFB_tot (lep : lepton) : result R := Itot_norm (fun J => 3 / 8 * (2 * J J6s + J J6c)) lep.
  Definition I3_tot (lep : lepton) : result R := Itot_norm (fun J => J J3) lep.

  (** 195-287: the differential and binned distributions in an angle are the same code with the dictionaries above *)
  Definition dBR_dq2_dang_binned (dG : angcoeffs -> list (trig * R)) (ang_int : R -> trig -> R) (q2 amin amax : R) (lep : lep3) : R :=
    if negb (kinem_allowed q2 lep) then 0
    else BRfac * tau_B d * sum_ang (dG (get_angularcoeff q2 lep)) (fun a => ang_int amax a - ang_int amin a).
  Definition dBR_dq2_dang (dG : angcoeffs -> list (trig * R)) (ang_diff : R -> trig -> R) (q2 x : R) (lep : lep3) : R :=
    if negb (kinem_allowed q2 lep) then 0
    else BRfac * tau_B d * sum_ang (dG (get_angularcoeff q2 lep)) (ang_diff x).
  (** 195-204, 226-235, 257-266 *)
  Definition dBR_dq2_dcosthl_binned := dBR_dq2_dang_binned dG_dq2_dcosthl _cos_angle_int.
  Definition dBR_dq2_dcosthV_binned := dBR_dq2_dang_binned dG_dq2_dcosthV _cos_angle_int.
  Definition dBR_dq2_dphi_binned := dBR_dq2_dang_binned dG_dq2_dphi _angle_int.
  (** 211-219, 242-250, 274-282 *)
  Definition dBR_dq2_dcosthl := dBR_dq2_dang dG_dq2_dcosthl _cos_angle_diff.
  Definition dBR_dq2_dcosthV := dBR_dq2_dang dG_dq2_dcosthV _cos_angle_diff.
  Definition dBR_dq2_dphi := dBR_dq2_dang dG_dq2_dphi _angle_diff.
  (** 206-209, 221-224, 237-240, 252-255, 268-271, 284-287 with 375-415 (the average for lep = 'l') *)
  Definition over_q2 (f : R -> lep3 -> R) (lep : lepton) : R :=
    let one l := nintegrate (fun q2 => f q2 l) (m_lep d l ^ 2) ((m_B d - m_M d) ^ 2) in
    match lep with Ll => (one Le + one Lmu) / 2 | Lep l => one l end.
  Definition BR_binned_costhl (clmin clmax : R) (lep : lepton) : R := over_q2 (fun q2 l => dBR_dq2_dcosthl_binned q2 clmin clmax l) lep.
  Definition BR_binned_costhV (cVmin cVmax : R) (lep : lepton) : R := over_q2 (fun q2 l => dBR_dq2_dcosthV_binned q2 cVmin cVmax l) lep.
  Definition BR_binned_phi (phimin phimax : R) (lep : lepton) : R := over_q2 (fun q2 l => dBR_dq2_dphi_binned q2 phimin phimax l) lep.
  Definition dBR_dcosthl (cl : R) (lep : lepton) : R := over_q2 (fun q2 l => dBR_dq2_dcosthl q2 cl l) lep.
  Definition dBR_dcosthV (cV : R) (lep : lepton) : R := over_q2 (fun q2 l => dBR_dq2_dcosthV q2 cV l) lep.
  Definition dBR_dphi (phi : R) (lep : lepton) : R := over_q2 (fun q2 l => dBR_dq2_dphi q2 phi l) lep.

  (** *** bplnu.py *)
  (** 45-65 [_get_angularcoeff] *)
  Definition _get_angularcoeff_p (q2 : R) (lep nu : lep3) : pcoeffs :=
    let wc := wceff lep nu in
    if negb (lep3_eqb lep nu) && all_zero wc then {| Ja := 0; Jb := 0; Jc := 0 |}
    else
      let h := helicity_amps_p q2 (m_B d) (m_M d) (m_b d) (m_light d) (m_lep d lep) 0 (form d q2) wc (prefactor q2 lep) in
      angularcoeffs_general_p h q2 (m_B d) (m_M d) (m_lep d lep) 0.
  (** 34-42 [get_angularcoeff] *)
  Definition get_angularcoeff_p (q2 : R) (lep : lep3) : pcoeffs :=
    let s f := f (_get_angularcoeff_p q2 lep Le) + f (_get_angularcoeff_p q2 lep Lmu) + f (_get_angularcoeff_p q2 lep Ltau) in
    {| Ja := s Ja; Jb := s Jb; Jc := s Jc |}.
  (** 67-81 [dGdq2], [dBRdq2_lep] *)
  Definition p_dGdq2 (J : pcoeffs) : R := 2 * (Ja J + Jc J / 3).
  Definition p_dBRdq2_lep (q2 : R) (lep : lep3) : R :=
    if Rlt_dec q2 (m_lep d lep ^ 2) then 0 else if Rlt_dec ((m_B d - m_M d) ^ 2) q2 then 0
    else
      let J := get_angularcoeff_p q2 lep in
      if (meson d =? "pi0")%string then tau_B d * p_dGdq2 J / 2 else tau_B d * p_dGdq2 J.
  (** 83-88 [dBRdq2] *)
  Definition p_dBRdq2 (q2 : R) (lep : lepton) : R :=
    match lep with Ll => (p_dBRdq2_lep q2 Le + p_dBRdq2_lep q2 Lmu) / 2 | Lep l => p_dBRdq2_lep q2 l end.
  (** 94-97 [BR_binned], 112-129 [_BR_tot], [BR_tot], 131-139, 102-107, 141-146 *)
  Definition p_BR_binned (q2min q2max : R) (lep : lepton) : R := nintegrate (fun q2 => p_dBRdq2 q2 lep) q2min q2max.
  Definition _p_BR_tot (lep : lep3) : R := p_BR_binned (m_lep d lep ^ 2) ((m_B d - m_M d) ^ 2) (Lep lep).
  Definition p_BR_tot (lep : lepton) : R := match lep with Ll => (_p_BR_tot Le + _p_BR_tot Lmu) / 2 | Lep l => _p_BR_tot l end.
  Definition p_BR_binned_tot (q2min q2max : R) (lep : lepton) : R := ratio0 (p_BR_binned q2min q2max lep) (p_BR_tot lep).
  Definition p_BR_binned_leptonflavour (q2min q2max : R) (lnum lden : lepton) : R := ratio0 (p_BR_binned q2min q2max lnum) (p_BR_binned q2min q2max lden).
  Definition p_BR_tot_leptonflavour (lnum lden : lepton) : R := ratio0 (p_BR_tot lnum) (p_BR_tot lden).
End Lnu.

(** ** Neutral currents with a vector meson: bvll/observables.py *)
(** the data of a decay B -> V l+ l-: masses, lifetime, and the helicity amplitudes of the decay and its conjugate as functions of q2
    (162-187 [ha], [ha_bar]) *)
Record vll := Vll { l_mB : R; l_mV : R; l_tau : R; l_ml : R; l_h : R -> amps; l_hbar : R -> amps }.
Section VLL.
  Variable d : vll.
  (** 189-206 [j], [jbar], [jfunc] *)
  Definition j (q2 : R) : angcoeffs := angularcoeffs_general_v (l_h d q2) q2 (l_mB d) (l_mV d) (l_ml d) (l_ml d).
  Definition jbar (q2 : R) : angcoeffs := angularcoeffs_general_v (l_hbar d q2) q2 (l_mB d) (l_mV d) (l_ml d) (l_ml d).
  Definition jfunc (f : angcoeffs -> angcoeffs -> R) (q2 : R) : R := f (j q2) (jbar q2).
  (** 209-218 [BVllObservableDifferential] *)
  Definition allowed (q2 : R) : bool :=
    if Rlt_dec q2 (4 * l_ml d ^ 2) then false else if Rlt_dec ((l_mB d - l_mV d) ^ 2) q2 then false else true.
  (** 221-228 [BVllObservableBinned] *)
  Definition q2min_allowed (q2min : R) : R := Rmax (4 * l_ml d ^ 2) q2min.
  Definition q2max_allowed (q2max : R) : R := Rmin ((l_mB d - l_mV d) ^ 2) q2max.
  (** 231-293 *)
  Definition BVll_dBRdq2 (q2 : R) : R := if negb (allowed q2) then 0 else l_tau d * jfunc dGdq2_ave q2.
  Definition BVll_obs (f : angcoeffs -> angcoeffs -> R) (q2 : R) : R := if negb (allowed q2) then 0 else jfunc f q2.
  Definition BVll_ratio (num den : angcoeffs -> angcoeffs -> R) (q2 : R) : R :=
    if negb (allowed q2) then 0 else ratio0 (jfunc num q2) (jfunc den q2).
  Definition BVll_pprime (num : angcoeffs -> angcoeffs -> R) (q2 : R) : R :=
    if negb (allowed q2) then 0
    else ratio0 (jfunc num q2) (2 * sqrt (- jfunc (fun J Jb => S_experiment_num J Jb J2s) q2 * jfunc (fun J Jb => S_experiment_num J Jb J2c) q2)).
  (** 296-381 *)
  Definition binned (obs : R -> R) (q2min q2max : R) : R := nintegrate_pole obs (q2min_allowed q2min) (q2max_allowed q2max).
  Definition empty_bin (q2min q2max : R) : bool := if Rle_dec (q2max_allowed q2max) (q2min_allowed q2min) then true else false.
  Definition BVll_dBRdq2_int (q2min q2max : R) : R :=
    if empty_bin q2min q2max then 0 else binned (fun q2 => l_tau d * jfunc dGdq2_ave q2) q2min q2max / (q2max - q2min).
  Definition BVll_obs_int (f : angcoeffs -> angcoeffs -> R) (q2min q2max : R) : R :=
    if empty_bin q2min q2max then 0 else binned (jfunc f) q2min q2max / (q2max - q2min).
  Definition BVll_int_ratio (num den : angcoeffs -> angcoeffs -> R) (q2min q2max : R) : R :=
    if empty_bin q2min q2max then 0 else ratio0 (binned (jfunc num) q2min q2max) (binned (jfunc den) q2min q2max).
  Definition BVll_int_pprime (num : angcoeffs -> angcoeffs -> R) (q2min q2max : R) : R :=
    if empty_bin q2min q2max then 0
    else
      let den_2s := binned (jfunc (fun J Jb => S_experiment_num J Jb J2s)) q2min q2max in
      let den_2c := binned (jfunc (fun J Jb => S_experiment_num J Jb J2c)) q2min q2max in
      ratio0 (binned (jfunc num) q2min q2max) (2 * sqrt (- den_2s * den_2c)).
End VLL.
(** 404-433 [bvll_obs_int_ratio_leptonflavour], [bvll_obs_ratio_leptonflavour]: the same decay with two leptons *)
Definition bvll_obs_int_ratio_leptonflavour (f : angcoeffs -> angcoeffs -> R) (d1 d2 : vll) (q2min q2max : R) : R :=
  ratio0 (BVll_obs_int d1 f q2min q2max) (BVll_obs_int d2 f q2min q2max).
Definition bvll_obs_ratio_leptonflavour (f : angcoeffs -> angcoeffs -> R) (d1 d2 : vll) (q2 : R) : R :=
  ratio0 (BVll_obs d1 f q2) (BVll_obs d2 f q2).

(** ** Neutral currents with a pseudoscalar meson: bpll.py *)
Record pll := Pll { k_mB : R; k_mP : R; k_tau : R; k_ml : R; k_name : string; k_h : R -> pamps; k_hbar : R -> pamps }.
Section PLL.
  Variable d : pll.
  (** 78-95 [bpll_obs] *)
  Definition bpll_obs (f : pcoeffs -> pcoeffs -> R) (q2 : R) : R :=
    if Rle_dec q2 ((k_ml d + k_ml d) ^ 2) then 0 else if Rlt_dec ((k_mB d - k_mP d) ^ 2) q2 then 0
    else f (angularcoeffs_general_p (k_h d q2) q2 (k_mB d) (k_mP d) (k_ml d) (k_ml d)) (angularcoeffs_general_p (k_hbar d q2) q2 (k_mB d) (k_mP d) (k_ml d) (k_ml d)).
  (** 117-120 *)
  Definition bpll_obs_int (f : pcoeffs -> pcoeffs -> R) (q2min q2max : R) : R := nintegrate (bpll_obs f) q2min q2max.
  (** 123-135 *)
  Definition bpll_dbrdq2 (q2 : R) : R :=
    let dBR := k_tau d * bpll_obs P_dGdq2_cpaverage q2 in if (k_name d =? "pi0")%string then dBR / 2 else dBR.
  Definition bpll_dbrdq2_int (q2min q2max : R) : R := nintegrate bpll_dbrdq2 q2min q2max / (q2max - q2min).
  (** 144-168 [bpll_dbrdq2_tot_func], [bpll_dbrdq2_Belle_func] *)
  Definition bpll_dbrdq2_tot : R :=
    let q2max := (k_mB d - k_mP d) ^ 2 in let q2min := (k_ml d + k_ml d) ^ 2 in bpll_dbrdq2_int q2min q2max * (q2max - q2min).
  (** 175-182, 206-213 *)
  Definition bpll_obs_int_ratio (num den : pcoeffs -> pcoeffs -> R) (q2min q2max : R) : R := ratio0 (bpll_obs_int num q2min q2max) (bpll_obs_int den q2min q2max).
  Definition bpll_obs_ratio (num den : pcoeffs -> pcoeffs -> R) (q2 : R) : R := ratio0 (bpll_obs num q2) (bpll_obs den q2).
End PLL.
(** 184-204 *)
Definition bpll_obs_int_ratio_leptonflavour (f : pcoeffs -> pcoeffs -> R) (d1 d2 : pll) (q2min q2max : R) : R := ratio0 (bpll_obs_int d1 f q2min q2max) (bpll_obs_int d2 f q2min q2max).
Definition bpll_obs_ratio_leptonflavour (f : pcoeffs -> pcoeffs -> R) (d1 d2 : pll) (q2 : R) : R := ratio0 (bpll_obs d1 f q2) (bpll_obs d2 f q2).

(** ** Bs decays: bvll/observables_bs.py *)
(** 26-32 [h_tilde]; the other entries are those of [h_bar] *)
Definition h_tilde (h_bar : amps) : amps := {|
  aV := fun l => match l with H0 => aV h_bar H0 | Hpl => aV h_bar Hmi | Hmi => aV h_bar Hpl end;
  aA := fun l => match l with H0 => aA h_bar H0 | Hpl => aA h_bar Hmi | Hmi => aA h_bar Hpl end;
  aP := aP h_bar; aS := (- aS h_bar)%C; aT := aT h_bar; aTt := aTt h_bar |}.
(** 38-71 *)
Definition S_theory_num_Bs (y : R) (J J_bar J_h : angcoeffs) (i : jkey) : R := 1 / (1 - y ^ 2) * (J i + J_bar i) - y / (1 - y ^ 2) * J_h i.
Definition S_experiment_num_Bs (y : R) (J J_bar J_h : angcoeffs) (i : jkey) : R :=
  if signflip i then - S_theory_num_Bs y J J_bar J_h i else S_theory_num_Bs y J J_bar J_h i.
Definition dGdq2_ave_Bs (y : R) (J J_bar J_h : angcoeffs) : R :=
  (1 / (1 - y ^ 2) * (dGdq2 J + dGdq2 J_bar) - y / (1 - y ^ 2) * dGdq2 J_h) / 2.
Definition SA_den_Bs (y : R) (J J_bar J_h : angcoeffs) : R := 2 * dGdq2_ave_Bs y J J_bar J_h.
Definition S_experiment_Bs (y : R) (J J_bar J_h : angcoeffs) (i : jkey) : R := S_experiment_num_Bs y J J_bar J_h i / SA_den_Bs y J J_bar J_h.
Definition FL_num_Bs (y : R) (J J_bar J_h : angcoeffs) : R := - S_theory_num_Bs y J J_bar J_h J2c.
Definition FL_Bs (y : R) (J J_bar J_h : angcoeffs) : R := FL_num_Bs y J J_bar J_h / SA_den_Bs y J J_bar J_h.
(** the data: par['DeltaGamma/Gamma_Bs'] and q/p besides those of [vll] *)
Record bsvll := BsVll { b_d : vll; b_dGoG : R; b_qp : C }.
Section BsVLL.
  Variable b : bsvll.
  (** 12-36 [bsvll_obs] *)
  Definition bsvll_obs (f : R -> angcoeffs -> angcoeffs -> angcoeffs -> R) (q2 : R) : R :=
    let d := b_d b in
    let y := b_dGoG b / 2 in
    if negb (allowed d q2) then 0
    else
      let phi := phase (- b_qp b)%C in
      f y (j d q2) (jbar d q2) (angularcoeffs_h_v phi (l_h d q2) (h_tilde (l_hbar d q2)) q2 (l_mB d) (l_mV d) (l_ml d) (l_ml d)).
  (** 74-86 *)
  Definition bsvll_dbrdq2 (q2 : R) : R := l_tau (b_d b) * bsvll_obs dGdq2_ave_Bs q2.
  Definition bsvll_obs_int (f : R -> angcoeffs -> angcoeffs -> angcoeffs -> R) (q2min q2max : R) : R := nintegrate_pole (bsvll_obs f) q2min q2max.
  Definition bsvll_dbrdq2_int (q2min q2max : R) : R := nintegrate_pole bsvll_dbrdq2 q2min q2max / (q2max - q2min).
  (** 100-127 *)
  Definition bsvll_obs_int_ratio (num den : R -> angcoeffs -> angcoeffs -> angcoeffs -> R) (q2min q2max : R) : R :=
    ratio0 (bsvll_obs_int num q2min q2max) (bsvll_obs_int den q2min q2max).
  Definition bsvll_obs_ratio (num den : R -> angcoeffs -> angcoeffs -> angcoeffs -> R) (q2 : R) : R := ratio0 (bsvll_obs num q2) (bsvll_obs den q2).
End BsVLL.
