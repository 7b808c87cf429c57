(** * Model of leptonic decays: bdecays/bll.py, bdecays/blnu.py, ddecays/dlnu.py, kdecays/klnu.py,
      taudecays/taupnu.py, taudecays/taulnunu.py, taudecays/common.py
    Floats are exact reals, complex floats are [C]; [par] and the running quark masses and couplings that the code
    looks up are fields of a record; Wilson coefficients are looked up by operator and lepton flavours. *)
From Coq Require Import Reals List.
From Coquelicot Require Import Coquelicot.
From Verif Require Import Base Basics_Model Decays_Model.
Import ListNotations.
Local Open Scope R_scope.

Definition leps : list lep3 := [Le; Lmu; Ltau].
Definition rsum (l : list R) : R := fold_right Rplus 0 l.

(** ** bll.py *)
(** operators read by [amplitudes] (66-69) *)
Inductive llop := O9 | O9p | O10 | O10p | OP | OPp | OS | OSp.
(** parameters of one meson; [ll_np op l1 l2] is the entry of [wc_obj.get_wc(label, ...)], [ll_sm op] the SM part that
    [wctot_dict] adds (bdecays/wilsoncoefficients.py:81-113); ll_dGoG is par['DeltaGamma/Gamma_'+B];
    ll_xi the CKM factor chosen by the meson (bll.py:99-102); ll_mspec the spectator mass (57-60) *)
Record bqll := Bqll { ll_m : lep3 -> R; ll_mB : R; ll_tau : R; ll_f : R; ll_mb : R; ll_mspec : R; ll_GF : R; ll_alpha : R;
  ll_xi : C; ll_dGoG : R; ll_np : llop -> lep3 -> lep3 -> C; ll_sm : llop -> C }.
(** the coefficients handed to the functions *)
Definition wcdict := llop -> lep3 -> lep3 -> C.

(** bll.py:14-30 *)
Definition br_lifetime_corr (y A : R) : R := (1 - y ^ 2) / (1 + A * y).

Section BLL.
  Variable d : bqll.
  (** bll.py:32-74 [amplitudes] *)
  Definition amplitudes (wc : wcdict) (l1 l2 : lep3) : C * C :=
    let ml1 := ll_m d l1 in let ml2 := ll_m d l2 in let mB := ll_mB d in
    let C9m := (wc O9 l1 l2 - wc O9p l1 l2)%C in
    let C10m := (wc O10 l1 l2 - wc O10p l1 l2)%C in
    let CPm := (wc OP l1 l2 - wc OPp l1 l2)%C in
    let CSm := (wc OS l1 l2 - wc OSp l1 l2)%C in
    let beta_m := sqrt (1 - (ml1 - ml2) ^ 2 / mB ^ 2) in
    let beta_p := sqrt (1 - (ml1 + ml2) ^ 2 / mB ^ 2) in
    let P := (RtoC beta_m * (RtoC ((ml2 + ml1) / mB) * C10m + RtoC (mB * ll_mb d / (ll_mb d + ll_mspec d)) * CPm))%C in
    let S := (RtoC beta_p * (RtoC ((ml2 - ml1) / mB) * C9m + RtoC (mB * ll_mb d / (ll_mb d + ll_mspec d)) * CSm))%C in
    (P, S).
  (** bll.py:76-79; a vanishing denominator raises ZeroDivisionError in Python; here the quotient is Coq's and the theorems
      say where they need a nonzero denominator *)
  Definition ADeltaGamma (wc : wcdict) (lep : lep3) : R :=
    let '(p, s) := amplitudes wc lep lep in
    (fst (p * p)%C - fst (s * s)%C) / (Cmod p ^ 2 + Cmod s ^ 2).
  (** bll.py:81-107 *)
  Definition br_inst (wc : wcdict) (l1 l2 : lep3) : R :=
    let ml1 := ll_m d l1 in let ml2 := ll_m d l2 in let mB := ll_mB d in
    let N := (ll_xi d * RtoC (4 * ll_GF d / sqrt 2 * (ll_alpha d / (4 * PI))))%C in
    let beta := sqrt (lambda_K (mB ^ 2) (ml1 ^ 2) (ml2 ^ 2)) / mB ^ 2 in
    let prefactor := Cmod N ^ 2 / 32 / PI * mB ^ 3 * ll_tau d * beta * ll_f d ^ 2 in
    let '(p, s) := amplitudes wc l1 l2 in
    prefactor * (Cmod p ^ 2 + Cmod s ^ 2).
  (** bll.py:109-118 *)
  Definition br_timeint (wc : wcdict) (l1 l2 : lep3) : result R :=
    if negb (lep3_eqb l1 l2) then Err ValueError
    else let y := ll_dGoG d / 2 in
         Ok (br_inst wc l1 l1 / br_lifetime_corr y (ADeltaGamma wc l1)).
  (** bll.py:158-161 *)
  Definition tau_ll (wc : wcdict) (lep : lep3) : R :=
    let ADG := ADeltaGamma wc lep in let y := 1 / 2 * ll_dGoG d in
    - (((1 + y ^ 2 + 2 * y * ADG) * ll_tau d) / ((- 1 + y ^ 2) * (1 + y * ADG))).
  (** the dictionaries: [wctot_dict] for equal flavours, [get_wc] otherwise (bll.py:120-128) *)
  Definition wc_of (l1 l2 : lep3) : wcdict :=
    if lep3_eqb l1 l2 then fun op a b => (ll_np d op a b + ll_sm d op)%C else ll_np d.
  (** bll.py:120-128 [bqll_obs] with [function] one of [br_inst], [br_timeint] *)
  Definition bqll_inst (l1 l2 : lep3) : R := br_inst (wc_of l1 l2) l1 l2.
  Definition bqll_timeint (l1 l2 : lep3) : result R := br_timeint (wc_of l1 l2) l1 l2.
  (** bll.py:130-136 [bqll_obs_lsum] with [br_inst] (as registered, 262) *)
  Definition bqll_lsum (l1 l2 : lep3) : result R :=
    if lep3_eqb l1 l2 then Err ValueError
    else Ok (br_inst (ll_np d) l1 l2 + br_inst (ll_np d) l2 l1).
  (** bll.py:163-182 [tau_ll_func], [ADeltaGamma_func] *)
  Definition tau_ll_func (lep : lep3) : R := tau_ll (wc_of lep lep) lep.
  Definition ADG_func (lep : lep3) : R := ADeltaGamma (wc_of lep lep) lep.
End BLL.

(** ** blnu.py, dlnu.py, klnu.py, taupnu.py *)
(** operators of d_i -> d_j l nu read by [br_plnu_general] *)
Inductive fcop := FVL | FVR | FSR | FSL.
(** parameters: quark masses are the running masses get_mb, ... at the scale of the decay; pl_CVLSM is [get_CVLSM] at that
    scale; pl_GFeff is [GFeff(wc_obj, par)]; pl_delta the correction [delta_Plnu] of kaon and pion decays;
    pl_V is the CKM element chosen by the function *)
Record plnu := Plnu { pl_m : lep3 -> R; pl_mP : R; pl_tau : R; pl_f : R; pl_GF : R; pl_V : C; pl_mb : R; pl_mc : R; pl_ms : R; pl_md : R; pl_mu : R;
  pl_CVLSM : R; pl_GFeff : R; pl_delta : lep3 -> R; pl_tautau : R; pl_np : fcop -> lep3 -> lep3 -> C }.
Inductive charged := Bplus | Bc | Dplus | Ds | Kplus | piplus.

(** blnu.py:7-25 [br_plnu_general]; [wc op] is the entry for the lepton and neutrino flavours *)
Definition br_plnu_general (ml mP GF tau f : R) (wc : fcop -> C) (Vij : C) (mq1 mq2 delta : R) : R :=
  let rWC := ((wc FVL - wc FVR) + RtoC (mP ^ 2 / ml / (mq1 + mq2)) * (wc FSR - wc FSL))%C in
  let N := tau * GF ^ 2 * f ^ 2 / (8 * PI) * mP * ml ^ 2 * (1 - ml ^ 2 / mP ^ 2) ^ 2 in
  N * Cmod Vij ^ 2 * Cmod rWC ^ 2 * (1 + delta).
(** the SM part added to CVL if the flavours agree: blnu.py:46-47, dlnu.py:24-25; klnu.py:28-32 and taupnu.py:27-31 rescale it *)
Definition add_sm (sm : R) (same : bool) (wc : fcop -> C) : fcop -> C :=
  fun op => match op with FVL => if same then (wc FVL + RtoC sm)%C else wc FVL | _ => wc op end.
Section PLNU.
  Variable d : plnu.
  Let r_GF := pl_GFeff d / pl_GF d.
  (** blnu.py:32-54 [_br_blnu], dlnu.py:11-28 [_br_Dlnu], klnu.py:14-40 [_br_plnu] *)
  Definition br1 (P : charged) (lep nu : lep3) : R :=
    let same := lep3_eqb lep nu in
    let wc := fun op => pl_np d op lep nu in
    let general := br_plnu_general (pl_m d lep) (pl_mP d) (pl_GF d) (pl_tau d) (pl_f d) in
    match P with
    | Bplus => general (add_sm (pl_CVLSM d) same wc) (pl_V d) (pl_mb d) 0 0
    | Bc => general (add_sm (pl_CVLSM d) same wc) (pl_V d) (pl_mb d) (pl_mc d) 0
    | Dplus | Ds => general (add_sm (pl_CVLSM d) same wc) (pl_V d) (pl_mb d) (pl_mc d) 0
    | Kplus => general (add_sm (pl_CVLSM d * r_GF) same wc) (pl_V d) (pl_ms d) (pl_mu d) (pl_delta d lep)
    | piplus => general (add_sm (pl_CVLSM d * r_GF) same wc) (pl_V d) (pl_md d) (pl_mu d) (pl_delta d lep)
    end.
  (** blnu.py:28-29, dlnu.py:7-9, klnu.py:10-12 *)
  Definition br_plnu (P : charged) (lep : lep3) : R := rsum (map (br1 P lep) leps).
  (** klnu.py:42-47 *)
  Definition r_plnu (P : charged) : R := 100055 / 100000 * br_plnu P Le / br_plnu P Lmu.
  (** klnu.py:49-50 *)
  Definition gamma_plnu (P : charged) (l : lep3) : R := br_plnu P l / pl_tau d.
End PLNU.

(** ** taudecays/common.py *)
(** common.py:58-59 *)
Definition Gamma2 (amp2 M m1 m2 : R) : R := sqrt (lambda_K (M ^ 2) (m1 ^ 2) (m2 ^ 2)) / (16 * PI * M ^ 3) * amp2.
(** common.py:52-56 *)
Definition GammaFsf (M ms mf : R) (gL gR : C) : R :=
  let amp2 := ((Cmod gL ^ 2 + Cmod gR ^ 2) * (M ^ 2 + mf ^ 2 - ms ^ 2) + 4 * M * mf * (fst gL * fst gR + snd gL * snd gR)) / 2 in
  Gamma2 amp2 M mf ms.
Definition nz (z : C) : bool := if Req_EM_T (fst z) 0 then if Req_EM_T (snd z) 0 then false else true else true.
Definition re (z : C) : R := fst z.
(** common.py:6-50; [any([..])] is whether one of the couplings is nonzero *)
Definition GammaFvf (M mv mf : R) (gL gR gTL gtTL gTR gtTR : C) : R :=
  let anyV := orb (nz gL) (nz gR) in
  let anyT := orb (nz gTL) (orb (nz gtTL) (orb (nz gTR) (nz gtTR))) in
  let amp2 := if Req_EM_T mv 0 then
      let aV := if anyV then (Cmod gL ^ 2 + Cmod gR ^ 2) * (M ^ 2 + mf ^ 2) - 8 * mf * M * re (gR * Cconj gL)%C else 0 in
      let aT := if anyT then (M ^ 2 - mf ^ 2) ^ 2 * (Cmod gTL ^ 2 + Cmod gTR ^ 2 + Cmod gtTL ^ 2 + Cmod gtTR ^ 2
                  - 2 * (re (gTL * Cconj gtTL)%C - re (gTR * Cconj gtTR)%C)) else 0 in
      let aI := if andb anyV anyT then
           3 * M * (M ^ 2 - mf ^ 2) * re (gL * Cconj (gTR + gtTR) + gR * Cconj (gTL - gtTL))%C
         + 3 * mf * (mf ^ 2 - M ^ 2) * re (gR * Cconj (gTR + gtTR) + gL * Cconj (gTL - gtTL))%C else 0 in
      aV + aT + aI
    else
      let aV := if anyV then ((Cmod gL ^ 2 + Cmod gR ^ 2) * ((mf ^ 2 - M ^ 2) ^ 2 / mv ^ 2 + mf ^ 2 + M ^ 2 - 2 * mv ^ 2)
                  - 12 * mf * M * re (gR * Cconj gL)%C) / 2 else 0 in
      let aT := if anyT then mv ^ 2 / 2 * ((Cmod (gTL - gtTL)%C ^ 2 + Cmod (gTR + gtTR)%C ^ 2) * (2 * (mf ^ 2 - M ^ 2) ^ 2 / mv ^ 2 - mf ^ 2 - M ^ 2 - mv ^ 2)
                  - 12 * mf * M * re ((gTR + gtTR) * Cconj (gTL - gtTL))%C) else 0 in
      let aI := if andb anyV anyT then
           3 * M * (M ^ 2 - mf ^ 2 - mv ^ 2) * re (gL * Cconj (gTR + gtTR) + gR * Cconj (gTL - gtTL))%C
         + 3 * mf * (mf ^ 2 - M ^ 2 - mv ^ 2) * re (gR * Cconj (gTR + gtTR) + gL * Cconj (gTL - gtTL))%C else 0 in
      aV + aT + aI in
  Gamma2 amp2 M mf mv.

Section TAUP.
  Variable d : plnu.
  (** taupnu.py:10-39 [_br_taupnu]; [pl_np op Ltau nu] holds the coefficients of 'dutaunu'+lep / 'sutaunu'+lep *)
  Definition taup1 (P : charged) (nu : lep3) : R :=
    let wc := add_sm (pl_CVLSM d * (pl_GFeff d / pl_GF d)) (lep3_eqb nu Ltau) (fun op => pl_np d op Ltau nu) in
    let mtau := pl_m d Ltau in
    let mq := match P with Kplus => pl_ms d + pl_mu d | _ => pl_md d + pl_mu d end in
    let rWC := ((wc FVL - wc FVR) + RtoC (pl_mP d ^ 2 / mtau / mq) * (wc FSR - wc FSL))%C in
    let gR := (RtoC (- sqrt 2 * pl_GF d) * pl_V d * rWC * RtoC (pl_f d * mtau))%C in
    pl_tautau d * GammaFsf mtau (pl_mP d) 0 (RtoC 0) gR.
  (** taupnu.py:42-45 *)
  Definition br_taupnu (P : charged) : R := rsum (map (taup1 P) leps).
End TAUP.

(** ** taudecays/taulnunu.py *)
(** taulnunu.py:7-14 *)
Definition F3 (x : R) : R := 1 - 8 * x + 8 * x ^ 3 - x ^ 4 - 12 * x ^ 2 * ln x.
Definition G3 (x : R) : R := 1 + 9 * x - 9 * x ^ 2 - x ^ 3 + 6 * x * ln x + 6 * x ^ 2 * ln x.
Definition BR3 (x : R) (CL CR : C) : R := F3 x * (Cmod CL ^ 2 + Cmod CR ^ 2) - 4 * G3 x * re (CL * Cconj CR)%C.
(** taulnunu.py:17-30 [GFeff]; math.sqrt of a negative number raises ValueError, division by 0. ZeroDivisionError *)
Definition GFeff (me mmu GF : R) (CL CR : C) : result R :=
  let x := me ^ 2 / mmu ^ 2 in
  let CLSM := - 4 * GF / sqrt 2 in
  if Req_EM_T (BR3 x (RtoC CLSM) (RtoC 0)) 0 then Err ZeroDivisionError else
  let r := BR3 x (CL + RtoC CLSM)%C CR / BR3 x (RtoC CLSM) (RtoC 0) in
  if Rlt_dec r 0 then Err ValueError else if Req_EM_T r 0 then Err ZeroDivisionError else Ok (GF / sqrt r).
(** coefficients CVLL_, CVLR_ of the sector by the flavours in the key 'nu{}nu{}{}{}' (None: key absent);
    tl_GFeff is the value of [GFeff], tl_alpha of [get_alpha_e] *)
Record taulnunu := Taulnunu { tl_m : lep3 -> R; tl_tau : R; tl_GFeff : R; tl_alpha : R;
  tl_LL : lep3 -> lep3 -> lep3 -> lep3 -> option C; tl_LR : lep3 -> lep3 -> lep3 -> lep3 -> option C }.
Section TAUL.
  Variable d : taulnunu.
  (** taulnunu.py:33-65 *)
  Definition BR_taulnunu (lep nu1 nu2 : lep3) : result R :=
    let x := tl_m d lep ^ 2 / tl_m d Ltau ^ 2 in
    do cc <- (match tl_LL d nu2 nu1 Ltau lep, tl_LR d nu2 nu1 Ltau lep with
              | Some CL, Some CR => Ok (CL, CR)
              | _, _ => match tl_LL d nu1 nu2 lep Ltau, tl_LR d nu1 nu2 lep Ltau with
                        | Some CL, Some CR => Ok (Cconj CL, Cconj CR)
                        | _, _ => Err KeyError end end);
    let '(CL, CR) := cc in
    let CL := if andb (lep3_eqb nu1 Ltau) (lep3_eqb nu2 lep) then (CL + RtoC (- 4 * tl_GFeff d / sqrt 2))%C else CL in
    let pre := tl_tau d / 3 / 2 ^ 9 / PI ^ 3 * tl_m d Ltau ^ 5 in
    let emcorr := 1 + tl_alpha d / (2 * PI) * (25 / 4 - PI ^ 2) in
    Ok (pre * BR3 x CL CR * emcorr).
  (** taulnunu.py:68-71 *)
  Definition BR_taulnunu_summed (lep : lep3) : result R :=
    do l <- mapM (fun p => BR_taulnunu lep (fst p) (snd p)) (list_prod leps leps);
    Ok (rsum l).
End TAUL.

(** ** taudecays/taulgamma.py:13-25 [BR_llgamma]; [C12] is wc['Cgamma_'+l1+l2], [C21] wc['Cgamma_'+l2+l1] *)
Definition BR_llgamma (tau ml1 ml2 : R) (C12 C21 : C) : R :=
  tau * GammaFvf ml1 0 ml2 (RtoC 0) (RtoC 0) (RtoC 2 * Cconj C12)%C (RtoC 0) (RtoC 2 * C21)%C (RtoC 0).
