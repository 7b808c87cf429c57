(** * Model of flavio/physics/kdecays/{kll,kpilnu,lambdaplnu,kpipi}.py

    Floats are real numbers, complex numbers pairs of them; CKM combinations, running masses, form factors and Wilson coefficients are parameters. *)
From Coq Require Import Reals.
From Coquelicot Require Import Complex.
From Coq Require Import String List Ascii.
From Verif Require Import Base Basics_Model Angular_Model Decays_Model WCtot_Model.
Import ListNotations.
Local Open Scope R_scope.

(** ** kll.py. The argument K is 'KL' or 'KS' *)
Inductive k0 := KL | KS.
(** Wilson coefficients of get_wc, by name without the sector: C9, C9p, C10, C10p, CP, CPp, CS, CSp *)
Record wc8 := Wc8 { c9 : C; c9p : C; c10 : C; c10p : C; cP : C; cPp : C; cS : C; cSp : C }.
(** parameters: lepton masses, m_K0, the masses m_KL and m_KS, lifetimes, f_K0, G_F, alpha_e, s2w, 'chi_disp(KL->gammagamma)', xi_t and xi_c of 'sd' *)
Record kpar := Kpar { kp_ml : lep3 -> R; kp_mK : R; kp_m : k0 -> R; kp_tau : k0 -> R; kp_f : R; kp_GF : R; kp_alpha : R; kp_s2w : R; kp_chi : R; kp_xt : C; kp_xc : C }.
(** 12-37 [amplitudes] *)
Definition kll_amplitudes (p : kpar) (w : wc8) (l1 l2 : lep3) : C * C :=
  let ml1 := kp_ml p l1 in let ml2 := kp_ml p l2 in let mK := kp_mK p in
  let C9m := (c9 w - c9p w)%C in let C10m := (c10 w - c10p w)%C in let CPm := (cP w - cPp w)%C in let CSm := (cS w - cSp w)%C in
  let P := (RtoC ((ml2 + ml1) / mK) * C10m + RtoC mK * CPm)%C in
  let Sa := (RtoC ((ml2 - ml1) / mK) * C9m + RtoC mK * CSm)%C in
  (kp_xt p * P, kp_xt p * Sa)%C.
(** 40-52 [amplitudes_LD]: (S, P) *)
Definition kll_LD (p : kpar) (K : k0) (l : lep3) : C * C :=
  let pre := 2 * kp_ml p l / kp_m p K / kp_s2w p in
  let zS : C := (- (2821 / 1000), 1216 / 1000) in let zL : C := (kp_chi p, - (521 / 100)) in
  let ASgaga := (RtoC (249 / 1000000) * zS)%C in
  let ALgaga := (RtoC (202 / 1000000) * zL)%C in
  (RtoC pre * ASgaga, - (RtoC pre * ALgaga))%C.
(** 55-69 [amplitudes_eff]: local variables are unbound for K = 'KS' and different leptons *)
Definition kll_eff (p : kpar) (w : wc8) (K : k0) (l1 l2 : lep3) (ld : bool) : result (C * C) :=
  let '(P, Sa) := kll_amplitudes p w l1 l2 in
  let '(SLD, PLD) := if orb (negb (lep3_eqb l1 l2)) (negb ld) then (RtoC 0, RtoC 0) else kll_LD p K l1 in
  match K with
  | KS => if lep3_eqb l1 l2 then Ok (RtoC (Im P), RtoC (Re Sa) + SLD)%C else Err UnboundLocalError
  | KL => Ok (RtoC (Re P) + PLD, RtoC (Im Sa))%C
  end.
(** 72-85 [get_wc]: the Standard Model C10 = C10_t + xi_c / xi_t C10_c (real numbers) is added for equal leptons *)
Definition kll_wc (p : kpar) (ct cc : R) (np : wc8) (l1 l2 : lep3) : wc8 :=
  if lep3_eqb l1 l2 then Wc8 (c9 np) (c9p np) ((RtoC ct + kp_xc p / kp_xt p * RtoC cc) + c10 np)%C (c10p np) (cP np) (cPp np) (cS np) (cSp np) else np.
(** 88-107 [br_kll] *)
Definition br_kll (p : kpar) (ct cc : R) (np : wc8) (K : k0) (l1 l2 : lep3) (ld : bool) : result R :=
  let wc := kll_wc p ct cc np l1 l2 in
  let ml1 := kp_ml p l1 in let ml2 := kp_ml p l2 in let mK := kp_mK p in
  let N := 4 * kp_GF p / sqrt 2 * kp_alpha p / (4 * PI) in
  let beta := sqrt (lambda_K (mK ^ 2) (ml1 ^ 2) (ml2 ^ 2)) / mK ^ 2 in
  let beta_p := sqrt (1 - (ml1 + ml2) ^ 2 / mK ^ 2) in
  let beta_m := sqrt (1 - (ml1 - ml2) ^ 2 / mK ^ 2) in
  let prefactor := 2 * Rabs N ^ 2 / 32 / PI * mK ^ 3 * kp_tau p K * beta * kp_f p ^ 2 in
  bind (kll_eff p wc K l1 l2 ld) (fun '(Peff, Seff) => Ok (prefactor * (beta_m ^ 2 * Cmod Peff ^ 2 + beta_p ^ 2 * Cmod Seff ^ 2))).
(** 115-118 [br_kll_fct_lsum]; np is the new physics for both orders *)
Definition br_kll_lsum (p : kpar) (ct cc : R) (np : lep3 -> lep3 -> wc8) (K : k0) (l1 l2 : lep3) : result R :=
  bind (br_kll p ct cc (np l1 l2) K l1 l2 true) (fun a => bind (br_kll p ct cc (np l2 l1) K l2 l1 true) (fun b => Ok (a + b))).

(** ** kpilnu.py. The data of the decay are those of a decay B -> M l nu (Decays_Model.v) with m_B = m_K, m_b = m_s, m_light = 0 and the name of the pion;
    the form factors are those of K0 *)
Inductive kaon3 := KLong | KShort | KPlus.
(** the corrections 'K->pi delta_K+pi0' and 'K0e3 delta_EM', 'K+e3 delta_EM', ... *)
Record kpi := Kpi { kd : lnu; kname : kaon3; delta_ff : R; delta_EM : string -> R }.
Definition lep_name (l : lep3) : string := match l with Le => "e"%string | Lmu => "mu"%string | Ltau => "tau"%string end.
Section Kpilnu.
  Variable k : kpi.
  Let d := kd k.
  (** 8-15 [get_ff] *)
  Definition kpi_ff (q2 : R) : ffkey -> R :=
    match kname k with KLong | KShort => form d q2 | KPlus => fun f => (delta_ff k + 1) * form d q2 f end.
  (** 26-41 [_get_angularcoeff] (V_us, the 'su' coefficients at m_rho0) *)
  Definition kpi_angularcoeff_nu (q2 : R) (lep nu : lep3) : pcoeffs :=
    let N := (RtoC (4 * GF d / sqrt 2) * Vij d)%C in
    let h := helicity_amps_p q2 (m_B d) (m_M d) (m_b d) (m_light d) (m_lep d lep) 0 (kpi_ff q2) (wceff d lep nu) N in
    angularcoeffs_general_p h q2 (m_B d) (m_M d) (m_lep d lep) 0.
  (** 17-24 *)
  Definition kpi_angularcoeff (q2 : R) (lep : lep3) : pcoeffs :=
    let s f := f (kpi_angularcoeff_nu q2 lep Le) + f (kpi_angularcoeff_nu q2 lep Lmu) + f (kpi_angularcoeff_nu q2 lep Ltau) in
    {| Ja := s Ja; Jb := s Jb; Jc := s Jc |}.
  (** 43-44 [dGdq2], 46-61 [dBRdq2]; a missing delta_EM (KeyError) is not modelled *)
  Definition kpi_dBRdq2 (q2 : R) (lep : lep3) : R :=
    if Rlt_dec q2 (m_lep d lep ^ 2) then 0 else if Rlt_dec ((m_B d - m_M d) ^ 2) q2 then 0 else
    let J := kpi_angularcoeff q2 lep in
    let dG := 2 * (Ja J + Jc J / 3) in
    if (meson d =? "pi0")%string then tau_B d * dG / 2
    else
      let deltaEM := match kname k with KPlus => delta_EM k (String.append "K+" (String.append (lep_name lep) "3 delta_EM"))
                                      | _ => delta_EM k (String.append "K0" (String.append (lep_name lep) "3 delta_EM")) end in
      tau_B d * dG * (1 + deltaEM) ^ 2.
  (** 63-66 [BR_binned], 68-74 [BR_tot]; par['m_l'] is missing *)
  Definition kpi_BR_tot (lep : lepton) : result R :=
    bind (par_m_lep d lep) (fun ml => match lep with Lep l => Ok (nintegrate (fun q2 => kpi_dBRdq2 q2 l) (ml ^ 2) ((m_B d - m_M d) ^ 2)) | Ll => Err KeyError end).
End Kpilnu.
(** 80-93 [logC] (m_KL, m_pi+; ff at m_K^2 - m_pi^2 and 0); math.log of a number that is not positive raises ValueError; wc are the coefficients of get_wceff_fccc *)
Definition logC (mK mP ms : R) (ml : result R) (ff : R -> ffkey -> R) (wc : wckey -> C) : result R :=
  bind ml (fun ml =>
  let q2 := mK ^ 2 - mP ^ 2 in
  let A := ml / q2 * Re (wc Wa + wc Wap)%C in
  if Req_EM_T A 0 then Err ZeroDivisionError else
  let c := ff q2 Fzero / ff 0 Fzero * (Re (wc Wp + wc Wpp)%C / (ms + 0) + A) / A in
  if Rlt_dec 0 c then Ok (ln c) else Err ValueError).
(** 96-104 [RT] *)
Definition RT (mK mP : R) (ff : R -> ffkey -> R) (wc : wckey -> C) : R :=
  let BT := ff 0 Ftens * 2 * mK / (mK + mP) in
  - 2 * BT / ff 0 Fplus * Re (wc Wtp).
(** lambdaplnu.py 7-13 [g1_f1] *)
Definition g1_f1 (F1 G1 : R) (VL VR : C) : R := G1 * Re (VL - VR)%C / (F1 * Re (VL + VR)%C).

(** ** kpipi.py. Parameters by name; the isospin I is 0 or 2 *)
Inductive isospin := I0 | I2.
Section Kpipi.
  Variable par : string -> R.
  Definition mstr (i : isospin) : string := match i with I0 => "0"%string | I2 => "2"%string end.
  Definition M (i : isospin) (s : string) : R := par (String.append "Kpipi M" (String.append (mstr i) (String.append " " s))).
  (** 13-37 [Kpipi_matrixelements_SM] *)
  Definition MSM (i : isospin) (n : nat) : R :=
    match i, n with
    | I0, 3%nat => M I0 "3" | I0, 4%nat => M I0 "4" | I0, 5%nat => M I0 "5" | I0, 6%nat => M I0 "6" | I0, 7%nat => M I0 "7" | I0, 8%nat => M I0 "8" | I0, 9%nat => M I0 "9"
    | I2, 7%nat => M I2 "7" | I2, 8%nat => M I2 "8" | I2, 9%nat => M I2 "9"
    | I2, 3%nat | I2, 4%nat | I2, 5%nat | I2, 6%nat => 0
    | I0, 1%nat => 1 / 3 * (M I0 "3" + 2 * M I0 "9")
    | I0, 2%nat => 1 / 3 * (- 2 * M I0 "3" + 3 * M I0 "4" + 2 * M I0 "9")
    | I0, 10%nat => - M I0 "3" + M I0 "4" + M I0 "9"
    | I2, 1%nat => 2 / 3 * M I2 "9" | I2, 2%nat => 2 / 3 * M I2 "9" | I2, 10%nat => M I2 "9"
    | _, _ => 0
    end.
  (** 40-97 [Kpipi_matrixelements_NP]: the items of the dictionary (ms is get_ms) *)
  Variable ms : R.
  Definition MNP_first (i : isospin) : list (string * R) :=
    let m n := MSM i n in
    let CVLR_sddd := (2 * m 5%nat / 3 - 2 * m 7%nat / 3) / 4 in
    let CSRL_sddd := (m 6%nat / 3 - m 8%nat / 3) / 4 in
    let CSRR_sddd := M i "SLL2_d" in
    let CTRR_sddd := - 8 * M i "SLL1_d" - 4 * M i "SLL2_d" in
    [("CVLL_sduu", m 1%nat / 4); ("CVLLt_sduu", m 2%nat / 4);
     ("CVLR_sduu", (m 5%nat / 3 + 2 * m 7%nat / 3) / 4); ("CVLRt_sduu", (m 6%nat / 3 + 2 * m 8%nat / 3) / 4);
     ("CVLL_sddd", (2 * m 3%nat / 3 - 2 * m 9%nat / 3) / 4); ("CVLR_sddd", CVLR_sddd); ("CSRL_sddd", CSRL_sddd);
     ("CSRR_sddd", CSRR_sddd); ("CTRR_sddd", CTRR_sddd)]%string ++
    match i with
    | I2 => [("CSRL_sduu", - CSRL_sddd); ("CSRR_sduu", - CSRR_sddd); ("CTRR_sduu", - CTRR_sddd); ("CSRLt_sduu", 1 / 2 * CVLR_sddd);
             ("CSRRt_sduu", - (- 1 / 2 * CSRR_sddd - 1 / 8 * CTRR_sddd)); ("CTRRt_sduu", - (- 6 * CSRR_sddd + 1 / 2 * CTRR_sddd)); ("C8_sd", 0)]%string
    | I0 => [("CSRL_sduu", M I0 "SLR2_u"); ("CSRLt_sduu", M I0 "SLR1_u"); ("CSRR_sduu", M I0 "SLL2_u"); ("CSRRt_sduu", M I0 "SLL1_u");
             ("CTRR_sduu", - M I0 "SLL4_u"); ("CTRRt_sduu", - M I0 "SLL3_u"); ("C8_sd", - ms * M I0 "g-" / 2)]%string
    end.
  Definition lookR (n : string) (l : list (string * R)) : R := match find (fun p => String.eqb n (fst p)) l with Some p => snd p | None => 0 end.
  (** 79-96: (new name, old name) *)
  Definition flips : list (string * string) :=
    [("CVRR_sduu", "CVLL_sduu"); ("CVRRt_sduu", "CVLLt_sduu"); ("CVRR_sddd", "CVLL_sddd"); ("CVRL_sduu", "CVLR_sduu"); ("CVRLt_sduu", "CVLRt_sduu"); ("CVRL_sddd", "CVLR_sddd");
     ("CSLR_sduu", "CSRL_sduu"); ("CSLRt_sduu", "CSRLt_sduu"); ("CSLR_sddd", "CSRL_sddd"); ("CSLL_sduu", "CSRR_sduu"); ("CSLLt_sduu", "CSRRt_sduu"); ("CSLL_sddd", "CSRR_sddd");
     ("CTLL_sduu", "CTRR_sduu"); ("CTLLt_sduu", "CTRRt_sduu"); ("CTLL_sddd", "CTRR_sddd"); ("C8p_sd", "C8_sd")]%string.
  Definition MNP (i : isospin) : list (string * R) := MNP_first i ++ map (fun p => (fst p, - lookR (snd p) (MNP_first i))) flips.
  (** 100-127 [Kpipi_amplitudes_SM]; y and z are the coefficients of the dictionary (0 if missing), xi_u and xi_t those of 'ds' *)
  Variables xi_u xi_t : C.
  Variable GF : R.
  Variables y z : nat -> R.
  Definition ampSM (include_VmA include_VpA scale_ImA0EW : bool) (i : isospin) : C :=
    let pref := (RtoC (GF / sqrt 2) * xi_u)%C in
    let tau := (- xi_t / xi_u)%C in
    let k := [1; 2]%nat ++ (if include_VmA then [3; 4; 9; 10]%nat else []) ++ (if include_VpA then [5; 6; 7; 8]%nat else []) in
    fold_left (fun A j =>
      let dA := (pref * RtoC (MSM i j) * (RtoC (z j) + tau * RtoC (y j)))%C in
      let dA := if andb scale_ImA0EW (andb (match i with I0 => true | I2 => false end) (existsb (Nat.eqb j) [7; 8; 9; 10]%nat)) then
          let b := 1 / par "epsp a" / (1 - par "Omegahat_eff") in (Re dA, b * Im dA)
        else dA in
      (A + dA)%C) k (RtoC 0).
  (** 130-141 [Kpipi_amplitudes_NP] *)
  Variable wc : string -> C.
  Definition ampNP (i : isospin) : C :=
    let pref := (RtoC (4 * GF / sqrt 2) * xi_t)%C in
    fold_left (fun A jm => (A + - pref * RtoC (snd jm) * Cconj (wc (fst jm)))%C) (MNP i) (RtoC 0).
  (** 143-176 *)
  Definition epsprime_SM : R :=
    let a := par "epsp a" in
    let ImA0 := Im (ampSM true true false I0) in let ImA2 := Im (ampSM true true false I2) in
    let ReA0 := par "ReA0(K->pipi)" in let ReA2 := par "ReA2(K->pipi)" in
    - par "omega+" / (sqrt 2 * par "eps_K") * (ImA0 / ReA0 * (1 - par "Omegahat_eff") - 1 / a * ImA2 / ReA2).
  Definition epsprime_NP : R :=
    let ImA0 := Im (ampNP I0) in let ImA2 := Im (ampNP I2) in
    let ReA0 := par "ReA0(K->pipi)" in let ReA2 := par "ReA2(K->pipi)" in
    let a := par "epsp a" in
    - par "omega+" / a / (sqrt 2 * par "eps_K") * (ImA0 / ReA0 - ImA2 / ReA2).
  Definition epsprime : R := epsprime_SM + epsprime_NP.
End Kpipi.
