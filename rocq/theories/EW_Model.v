(** * Model of electroweak precision observables, Higgs signal strengths and related
      flavio/physics/zdecays/{smeftew,gammazsm,gammaz,afbz}.py, wdecays/{gammaw,mw}.py, higgs/{decay,production,width,signalstrength}.py,
      scattering/ee_ww.py, neutrinos/trident.py, mdms/al.py

    Simplifications: floats are exact reals, complex floats are [C]; the parameters that are read are fields of a record; a coefficient
    dictionary [C\['name_ij'\]] is a function from an inductive type of names to complex numbers (coefficients that are not set are 0); where Python
    would raise ValueError or ZeroDivisionError (square root of a negative number, vanishing denominators) the quotients and square roots are Coq's
    and the theorems say where they need more. *)
From Coq Require Import Reals List String.
From Coquelicot Require Import Coquelicot.
From Verif Require Import Base.
Import ListNotations.
Local Open Scope R_scope.

(** coefficients of the Warsaw basis that occur; flavour indices 1, 2, 3 *)
Inductive wkey := phiWB | phiD | phiBox | phiB | phiW | phiG | kG | kW | ll_1221 | uG_33
  | phil1 (i j : nat) | phil3 (i j : nat) | phie (i j : nat) | phiq1 (i j : nat) | phiq3 (i j : nat) | phiu (i j : nat) | phid (i j : nat)
  | uphi (i j : nat) | dphi (i j : nat) | ephi (i j : nat).
Definition wcs := wkey -> C.
Inductive fermion := Fe | Fmu | Ftau | Fnue | Fnumu | Fnutau | Fu | Fc | Fd | Fs | Fb.
Definition feqb (a b : fermion) : bool :=
  match a, b with Fe, Fe | Fmu, Fmu | Ftau, Ftau | Fnue, Fnue | Fnumu, Fnumu | Fnutau, Fnutau | Fu, Fu | Fc, Fc | Fd, Fd | Fs, Fs | Fb, Fb => true | _, _ => false end.

(** ** zdecays/smeftew.py *)
(** 11-16 [_QN] *)
Definition T3L (f : fermion) : R :=
  match f with Fe | Fmu | Ftau => - (1 / 2) | Fnue | Fnumu | Fnutau => 1 / 2 | Fu | Fc => 1 / 2 | Fd | Fs | Fb => - (1 / 2) end.
Definition Qf (f : fermion) : R :=
  match f with Fe | Fmu | Ftau => - (1) | Fnue | Fnumu | Fnutau => 0 | Fu | Fc => 2 / 3 | Fd | Fs | Fb => - (1 / 3) end.
Definition Nc (f : fermion) : R := match f with Fe | Fmu | Ftau | Fnue | Fnumu | Fnutau => 1 | _ => 3 end.
(** 19-22 [_sectors] *)
Inductive sector := Sl | Snu | Su | Sd.
Definition sec (f : fermion) : sector :=
  match f with Fe | Fmu | Ftau => Sl | Fnue | Fnumu | Fnutau => Snu | Fu | Fc => Su | Fd | Fs | Fb => Sd end.
Definition idx (f : fermion) : nat :=
  match f with Fe | Fnue | Fu | Fd => 1 | Fmu | Fnumu | Fc | Fs => 2 | Ftau | Fnutau | Fb => 3 end.

(** parameters; p_V is [ckm.get_ckm(par)] with indices from 0; p_delta the uncertainties 'delta_Gamma...' by fermion *)
Record ewpar := Ewpar { p_GF : R; p_alpha : R; p_mZ : R; p_mW : R; p_s2w : R; p_tauZ : R; p_GWhad : R; p_GWlep : R; p_V : nat -> nat -> C;
  p_mh : R; p_mt : R; p_alphas : R; p_Dhad : R; p_Dlep : R; p_delta : string -> R }.

Section EW.
  Variable p : ewpar.
  Let GF := p_GF p.
  Section Coeffs.
    Variable c : wcs.
    (** 25-27 *)
    Definition d_GF : C := (RtoC (1 / (sqrt 2 * GF) * sqrt 2 / 2) * (c (phil3 2 2) + c (phil3 1 1) - c ll_1221 / RtoC 2))%C.
    (** 30-33 *)
    Definition sinthetahat2 : R := 1 / 2 * (1 - sqrt (1 - (4 * PI * p_alpha p) / (sqrt 2 * GF * p_mZ p ^ 2))).
    (** 35-44 *)
    Definition d_sh2 : C :=
      let sh2 := sinthetahat2 in let sh := sqrt sh2 in let ch2 := 1 - sh2 in let ch := sqrt ch2 in
      let s2h := 2 * ch * sh in let c2h := ch ^ 2 - sh ^ 2 in
      let dC := (RtoC s2h * (c phiD + RtoC 2 * (c (phil3 2 2) + c (phil3 1 1) - c ll_1221 / RtoC 2)) + RtoC 4 * c phiWB)%C in
      (RtoC (s2h / (8 * c2h * sqrt 2 * GF)) * dC)%C.
    (** 47-51 *)
    Definition d_mZ2 : C :=
      (RtoC (1 / (2 * sqrt 2) * p_mZ p ^ 2 / GF) * c phiD
       + RtoC ((Rpower 2 (1 / 4) * sqrt (PI * p_alpha p) * p_mZ p) / Rpower GF (3 / 2)) * c phiWB)%C.
    (** 54-61 *)
    Definition d_gZb : C :=
      let sh2 := sinthetahat2 in let sh := sqrt sh2 in let ch := sqrt (1 - sh2) in
      (- d_GF / RtoC (sqrt 2) - d_mZ2 / RtoC (2 * p_mZ p ^ 2) + RtoC (sh * ch / (sqrt 2 * GF)) * c phiWB)%C.
    (** 64-71 *)
    Definition s2w_eff (f : fermion) : R := match f with Fb => p_s2w p * (10065 / 10000) | _ => p_s2w p * (10010 / 10000) end.
    Definition gV_SM (f : fermion) : R := T3L f / 2 - Qf f * s2w_eff f.
    (** 74-76 *)
    Definition gA_SM (f : fermion) : R := T3L f / 2.
    (** [i, j = sorted((i, j))]; the following [if i > j] never holds *)
    Definition srt (i j : nat) : nat * nat := if Nat.leb i j then (i, j) else (j, i).
    Let k4 := RtoC (/ (4 * sqrt 2 * GF)).
    Definition conj_if (b : bool) (z : C) : C := if b then Cconj z else z.
    (** 79-87 [d_gVl], 90-98 [d_gVnu], 101-109 [d_gVu], 112-120 [d_gVd], 168-176 [d_gV]; f2 is of the same sector as f1 *)
    Definition d_gV (f1 f2 : fermion) : C :=
      let '(i, j) := srt (idx f1) (idx f2) in
      let same := feqb f1 f2 in
      let d_g := conj_if (Nat.ltb j i) (match sec f1 with
        | Sl => - (c (phie i j) + c (phil1 i j) + c (phil3 i j)) * k4
        | Snu => - (c (phil1 i j) - c (phil3 i j)) * k4
        | Su => (- c (phiu i j) - c (phiq1 i j) + c (phiq3 i j)) * k4
        | Sd => - (c (phid i j) + c (phiq1 i j) + c (phiq3 i j)) * k4 end)%C in
      if same then (d_g + (match sec f1 with
        | Sl => d_gZb * RtoC (gV_SM f1) + d_sh2
        | Snu => d_gZb * RtoC (gV_SM f1)
        | Su => d_gZb * RtoC (gV_SM f1) - RtoC (2 / 3) * d_sh2
        | Sd => d_gZb * RtoC (gV_SM f1) + RtoC (1 / 3) * d_sh2 end))%C
      else d_g.
    (** 123-131 [d_gAl], 134-135 [d_gAnu], 138-146 [d_gAu], 149-157 [d_gAd], 179-187 [d_gA] *)
    Definition d_gA (f1 f2 : fermion) : C :=
      let '(i, j) := srt (idx f1) (idx f2) in
      match sec f1 with
      | Snu => d_gV f1 f2
      | s =>
        let d_g := conj_if (Nat.ltb j i) (match s with
          | Sl => (c (phie i j) - c (phil1 i j) - c (phil3 i j)) * k4
          | Su => - (- c (phiu i j) + c (phiq1 i j) - c (phiq3 i j)) * k4
          | _ => (c (phid i j) - c (phiq1 i j) - c (phiq3 i j)) * k4 end)%C in
        if feqb f1 f2 then (d_g + d_gZb * RtoC (gA_SM f1))%C else d_g
      end.
    (** 190-197 [d_gWl], 200-207 [d_gWq], 210-214 [d_gW]: charged lepton and neutrino flavour (named by the charged lepton), or up- and down-type quark *)
    Definition d_gW (f1 f2 : fermion) : C :=
      let '(i, j) := srt (idx f1) (idx f2) in
      let sh2 := sinthetahat2 in let sh := sqrt sh2 in let ch := sqrt (1 - sh2) in
      ((c (match sec f1 with Sl => phil3 i j | _ => phiq3 i j end) + RtoC (1 / 2 * ch / sh) * c phiWB) * RtoC (/ (2 * sqrt 2 * GF))
        - RtoC (1 / 4) * d_sh2 / RtoC (sh ^ 2))%C.

    (** ** zdecays/gammazsm.py *)
    (** 18-31 the rows that are used, by name (72-81) *)
    Definition zname (f : fermion) : string :=
      match f with Fe | Fmu => "Gammae,mu" | Fd | Fs => "Gammad,s" | Fnue | Fnumu | Fnutau => "Gammanu" | Ftau => "Gammatau" | Fu => "Gammau" | Fc => "Gammac" | Fb => "Gammab" end%string.
    Definition crow (f : fermion) : list R :=
      match f with
      | Fe | Fmu => [83966 / 1000; - (47 / 1000); 807 / 1000; - (95 / 1000); - (1 / 100); 25 / 100; - (11 / 10); 285]
      | Ftau => [83776 / 1000; - (47 / 1000); 806 / 1000; - (95 / 1000); - (1 / 100); 25 / 100; - (11 / 10); 285]
      | Fnue | Fnumu | Fnutau => [167157 / 1000; - (55 / 1000); 126 / 100; - (19 / 100); - (2 / 100); 36 / 100; - (1 / 10); 503]
      | Fu => [299936 / 1000; - (34 / 100); 407 / 100; 1427 / 100; 16 / 10; 18 / 10; - (111 / 10); 1253]
      | Fc => [299860 / 1000; - (34 / 100); 407 / 100; 1427 / 100; 16 / 10; 18 / 10; - (111 / 10); 1253]
      | Fd | Fs => [382770 / 1000; - (34 / 100); 383 / 100; 1020 / 100; - (24 / 10); 67 / 100; - (101 / 10); 1469]
      | Fb => [375724 / 1000; - (30 / 100); - (228 / 100); 1053 / 100; - (24 / 10); 12 / 10; - 10; 1458]
      end.
    (** 50-64 [Zobs], 67-81 [GammaZ_SM] (Dalpha = 0.059) *)
    Definition Zobs (r : list R) (m_h m_t alpha_s Dalpha m_Z : R) : R :=
      let L_H := ln (m_h / (1257 / 10)) in let D_t := (m_t / (1732 / 10)) ^ 2 - 1 in let D_alpha_s := alpha_s / (1184 / 10000) - 1 in
      let D_alpha := Dalpha / (59 / 1000) - 1 in let D_Z := m_Z / (911876 / 10000) - 1 in
      let n k := nth k r 0 in
      (n 0%nat + n 1%nat * L_H + n 2%nat * D_t + n 3%nat * D_alpha_s + n 4%nat * D_alpha_s ^ 2 + n 5%nat * D_alpha_s * D_t + n 6%nat * D_alpha + n 7%nat * D_Z) * (1 / 1000).
    Definition GammaZ_SM (f : fermion) : R := Zobs (crow f) (p_mh p) (p_mt p) (p_alphas p) (59 / 1000) (p_mZ p) + p_delta p (zname f).

    (** ** zdecays/gammaz.py *)
    (** 9-16 *)
    Definition GammaZ_NP (nc : R) (gV : R) (dV : C) (gA : R) (dA : C) : R :=
      sqrt 2 * GF * p_mZ p ^ 3 / (3 * PI) * nc * (2 * fst (RtoC gV * dV)%C + 2 * fst (RtoC gA * dA)%C + Cmod dV ^ 2 + Cmod dA ^ 2).
    (** 19-35 *)
    Definition GammaZ (f1 f2 : fermion) : R :=
      let '(gv, ga, gsm) := if feqb f1 f2 then (gV_SM f1, gA_SM f1, GammaZ_SM f1) else (0, 0, 0) in
      gsm + GammaZ_NP (Nc f1) gv (d_gV f1 f2) ga (d_gA f1 f2).
    Definition sum2 (l1 l2 : list fermion) (g : fermion -> fermion -> R) : R :=
      fold_right Rplus 0 (map (fun ab => g (fst ab) (snd ab)) (list_prod l1 l2)).
    Definition sum1 (l : list fermion) (g : fermion -> R) : R := fold_right Rplus 0 (map g l).
    (** 48-52 *)
    Definition BRZ_av (f1 f2 : fermion) : R := p_tauZ p * (GammaZ f1 f2 + GammaZ f2 f1).
    (** 55-58, 61-63, 66-70 *)
    Definition GammaZnu : R := sum2 [Fnue; Fnumu; Fnutau] [Fnue; Fnumu; Fnutau] GammaZ / 3.
    Definition Gammal : R := sum1 [Fe; Fmu; Ftau] (fun l => GammaZ l l) / 3.
    Definition GammahadZ : R := sum2 [Fu; Fc] [Fu; Fc] GammaZ + sum2 [Fd; Fs; Fb] [Fd; Fs; Fb] GammaZ.
    (** 78-80, 73-75 *)
    Definition GammatotZ : R := GammahadZ + Gammal * 3 + GammaZnu * 3.
    Definition sigmahad : R := 12 * PI / p_mZ p ^ 2 / GammatotZ ^ 2 * GammaZ Fe Fe * GammahadZ.
    (** 83-102 *)
    Definition Rl : R := GammahadZ / Gammal.
    Definition Rq (f : fermion) : R := GammaZ f f / GammahadZ.
    Definition Rq1q2 (f1 f2 : fermion) : R := (GammaZ f1 f1 + GammaZ f2 f2) / (2 * GammahadZ).
    Definition Remutau (f : fermion) : R := GammahadZ / GammaZ f f.

    (** ** zdecays/afbz.py *)
    (** 8-10, 13-16 *)
    Definition Af (gV gA : C) : R := let r := fst (gV / gA)%C in 2 * r / (1 + r ^ 2).
    Definition AFBf (gVe gAe gVf gAf : C) : R := 3 / 4 * Af gVe gAe * Af gVf gAf.
    (** 19-25 *)
    Definition gV_tot (f : fermion) : C := (RtoC (gV_SM f) + d_gV f f)%C.
    Definition gA_tot (f : fermion) : C := (RtoC (gA_SM f) + d_gA f f)%C.
    (** 28-40 *)
    Definition Af_obs (f : fermion) : R := Af (gV_tot f) (gA_tot f).
    Definition AFB_obs (f : fermion) : R := AFBf (gV_tot Fe) (gA_tot Fe) (gV_tot f) (gA_tot f).

    (** ** wdecays/gammaw.py *)
    (** 9-25 *)
    Definition gWf_SM (f1 f2 : fermion) : C :=
      match sec f1 with Sl => if feqb f1 f2 then RtoC (1 / 2) else RtoC 0 | _ => (p_V p (idx f1 - 1)%nat (idx f2 - 1)%nat / RtoC 2)%C end.
    (** 27-37 *)
    Definition GammaW_SM (f1 f2 : fermion) : R :=
      match sec f1 with Sl => 4 * Cmod (gWf_SM f1 f2) ^ 2 * p_GWlep p / 3 | _ => 4 * Cmod (gWf_SM f1 f2) ^ 2 * p_GWhad p / 2 end.
    (** 40-43 *)
    Definition GammaW_NP (nc : R) (gW dW : C) : R :=
      sqrt 2 * GF * p_mW p ^ 3 / (3 * PI) * nc * (2 * fst (gW * dW)%C + Cmod dW ^ 2).
    (** 46-55 *)
    Definition GammaW (f1 f2 : fermion) : R := GammaW_SM f1 f2 + GammaW_NP (Nc f1) (gWf_SM f1 f2) (d_gW f1 f2).
    (** 58-66 *)
    Definition GammalepW : R := sum2 [Fe; Fmu; Ftau] [Fe; Fmu; Ftau] GammaW.
    Definition GammahadW : R := sum2 [Fu; Fc] [Fd; Fs; Fb] GammaW.
    Definition GammatotW : R := GammalepW + GammahadW.
    (** 69-74, 77-84, 87-89 *)
    Definition BRWlnu (l : fermion) : R := sum1 [Fe; Fmu; Ftau] (fun nu => GammaW l nu) / GammatotW.
    Definition RWlnu (l1 l2 : fermion) : R := sum1 [Fe; Fmu; Ftau] (fun nu => GammaW l1 nu) / sum1 [Fe; Fmu; Ftau] (fun nu => GammaW l2 nu).
    Definition RWcX : R := sum1 [Fd; Fs; Fb] (fun d => GammaW Fc d) / GammahadW.

    (** ** wdecays/mw.py *)
    (** 9-35 *)
    Definition mW_SM : R :=
      let dH := ln (p_mh p / 100) in let dh := (p_mh p / 100) ^ 2 in let dt := (p_mt p / (1743 / 10)) ^ 2 - 1 in
      let dZ := p_mZ p / (911875 / 10000) - 1 in let dalpha := (p_Dhad p + p_Dlep p) / (5907 / 100000) - 1 in
      let dalphas := p_alphas p / (119 / 1000) - 1 in
      803779 / 10000 - 5427 / 100000 * dH - 8931 / 1000000 * dH ^ 2 + 882 / 10000000 * dH ^ 4 + 161 / 1000000 * (dh - 1) - 1070 / 1000 * dalpha
        + 5237 / 10000 * dt - 679 / 10000 * dt ^ 2 - 179 / 100000 * dH * dt + 664 / 10000000 * dh * dt - 795 / 10000 * dalphas + 1149 / 10 * dZ.
    (** 37-47 *)
    Definition dmW_SMEFT : R :=
      let sh2 := sinthetahat2 in let sh := sqrt sh2 in let ch := sqrt (1 - sh2) in
      let Dh := ch * sh / ((ch ^ 2 - sh ^ 2) * 2 * sqrt 2 * GF) in
      fst (RtoC (1 / 2 * Dh) * (RtoC 4 * c phiWB + RtoC (ch / sh) * c phiD + RtoC (2 * sh / ch) * (c (phil3 1 1) + c (phil3 2 2) - c ll_1221 / RtoC 2)))%C.
    (** 49-55 *)
    Definition mW : R := mW_SM * (1 - dmW_SMEFT).
  End Coeffs.
End EW.

(** ** higgs/decay.py, higgs/production.py: [1 + 1e6 * np.real] with np the sum of coefficients times numbers *)
Definition lin (l : list (R * C)) : R := 1 + 1000000 * fst (fold_right (fun rc s => (RtoC (fst rc) * snd rc + s)%C) (RtoC 0) l).
Section Higgs.
  Variable c : wcs.
  (** C\['ll_1221'\] / 2 - C\['phil3_22'\] - C\['phil3_11'\] *)
  Definition gfc : C := (c ll_1221 / RtoC 2 - c (phil3 2 2) - c (phil3 1 1))%C.
  (** decay.py:11-23 *)
  Definition h_gg : R := lin [(3929 / 100, c phiG); (121 / 1000, (c phiBox - c phiD / RtoC 4)%C); (61 / 1000, gfc); (- (129 / 1000), c (uphi 3 3));
    (123 / 1000, c (uphi 2 2)); (239 / 1000, c (dphi 3 3)); (25 / 1000, c (dphi 2 2))].
  (** decay.py:25-41 *)
  Definition h_gaga : R := lin [(- (4578 / 100), c phiB); (- (1375 / 100), c phiW); (2509 / 100 - 242 / 1000, c phiWB); (121 / 1000, c phiBox); (- (141 / 1000), c phiD);
    (127 / 1000, gfc); (35 / 1000, c (uphi 3 3)); (- (34 / 1000), c (uphi 2 2)); (- (17 / 1000), c (dphi 3 3)); (- (43 / 1000), c (ephi 3 3)); (- (8 / 1000), c (ephi 2 2))].
  (** decay.py:43-54 *)
  Definition h_ww : R := lin [(- (92 / 1000), c phiW); (- (386 / 1000), c phiWB); (- (205 / 1000), c phiD); (121 / 1000, c phiBox); (144 / 1000, c ll_1221);
    (- (167 / 1000), c (phil3 1 1)); (- (167 / 1000), c (phil3 2 2))].
  (** decay.py:56-66 *)
  Definition h_zz : R := lin [(329 / 1000, c phiB); (- (386 / 1000), c phiW); (149 / 1000, c phiWB); (- (39 / 1000), c phiD); (118 / 1000, c phiBox); (198 / 1000, gfc)].
  (** width.py:9-15 *)
  Definition BR_SM_bb : R := 5807 / 10000. Definition BR_SM_WW : R := 2154 / 10000. Definition BR_SM_ZZ : R := 2643 / 100000.
  Definition BR_SM_gg : R := 8179 / 100000. Definition BR_SM_tautau : R := 6256 / 100000.
  (** decay.py:68-74 *)
  Definition h_vv : R := let d_ww := h_ww - 1 in let d_zz := h_zz - 1 in
    (BR_SM_WW * (1 + d_ww) + BR_SM_ZZ * (1 + d_zz)) / (BR_SM_WW + BR_SM_ZZ).
  (** decay.py:76-83 *)
  Definition h_zga : R := lin [(1489 / 100, c phiB); (- (1489 / 100), c phiW); (9377 / 1000, c phiWB)].
  (** decay.py:85-119 *)
  Definition h_bb : R := lin [(- (3 / 100), c phiD); (121 / 1000, c phiBox); (61 / 1000, gfc); (- (505 / 100), c (dphi 3 3))].
  Definition h_cc : R := lin [(- (3 / 100), c phiD); (121 / 1000, c phiBox); (61 / 1000, gfc); (- (1649 / 100), c (uphi 2 2))].
  Definition h_tautau : R := lin [(- (3 / 100), c phiD); (121 / 1000, c phiBox); (61 / 1000, gfc); (- (1188 / 100), c (ephi 3 3))].
  Definition h_mumu : R := lin [(- (3 / 100), c phiD); (121 / 1000, c phiBox); (61 / 1000, gfc); (- (1998 / 10), c (ephi 2 2))].
  (** production.py:9-21 *)
  Definition ggF : R := lin [(3586 / 100, c phiG); (121 / 1000, (c phiBox - c phiD / RtoC 4)%C); (61 / 1000, gfc); (- (129 / 1000), c (uphi 3 3));
    (123 / 1000, c (uphi 2 2)); (239 / 1000, c (dphi 3 3)); (25 / 1000, c (dphi 2 2))].
  (** production.py:23-34, 36-54 *)
  Definition hw : R := lin [(891 / 1000, c phiW); (- (187 / 1000), c phiWB); (- (115 / 1000), c phiD); (121 / 1000, c phiBox); (173 / 1000, gfc);
    (185 / 100, c (phiq3 1 1)); (126 / 1000, c (phiq3 2 2))].
  Definition hz : R := lin [(98 / 1000, c phiB); (721 / 1000, c phiW); (217 / 1000, c phiWB); (- (15 / 1000), c phiD); (122 / 1000, c phiBox); (152 / 1000, gfc);
    (- (187 / 1000), c (phiq1 1 1)); (1699 / 1000, c (phiq3 1 1)); (456 / 1000, c (phiu 1 1)); (- (148 / 1000), c (phid 1 1)); (44 / 1000, c (phiq1 2 2));
    (16 / 100, c (phiq3 2 2)); (28 / 1000, c (phiu 2 2)); (- (2 / 100), c (phid 2 2))].
  (** production.py:56-64 *)
  Definition hv : R := let xw := 1380 / 1000 in let xz := 8696 / 10000 in let d_hw := hw - 1 in let d_hz := hz - 1 in
    (xw * (1 + d_hw) + xz * (1 + d_hz)) / (xw + xz).
  (** production.py:66-76, 78-98 *)
  Definition tth : R := lin [(- (3 / 100), c phiD); (118 / 1000, c phiBox); (- (853 / 1000), c uG_33); (146 / 1000, c kG); (557 / 1000, c phiG); (6 / 100, gfc);
    (- (119 / 1000), c (uphi 3 3))].
  Definition vv_h : R := lin [(- (2 / 1000), c phiB); (- (88 / 1000), c phiW); (- (319 / 1000), c phiWB); (- (168 / 1000), c phiD); (121 / 1000, c phiBox); (277 / 1000, gfc);
    (14 / 1000, c (phiq1 1 1)); (- (384 / 1000), c (phiq3 1 1)); (- (27 / 1000), c (phiu 1 1)); (8 / 1000, c (phid 1 1)); (- (4 / 1000), c (phiq1 2 2));
    (- (75 / 1000), c (phiq3 2 2)); (- (4 / 1000), c (phiu 2 2)); (2 / 1000, c (phid 2 2))].
  (** width.py:18-26 *)
  Definition Gamma_rel_SM : R := 4101 / 1000000 / (12510 / 100).
  Definition Gamma_rel_ff (y : C) (nc : R) : R := Cmod y ^ 2 * nc / (8 * PI).
  (** width.py:29-54 *)
  Definition y_eff (GF : R) (k : wkey) : C := (RtoC (1 / GF / 2) * c k)%C.
  Definition Gamma_h (GF : R) : R :=
    let lin_ := (h_bb - 1) * BR_SM_bb + (h_tautau - 1) * BR_SM_tautau + (h_ww - 1) * BR_SM_WW + (h_zz - 1) * BR_SM_ZZ + (h_gg - 1) * BR_SM_gg in
    let quad := fold_right Rplus 0 (map (fun k => Gamma_rel_ff (y_eff GF k) 3 / Gamma_rel_SM) [uphi 1 1; uphi 2 2; dphi 1 1; dphi 2 2]) in
    1 + lin_ + quad.
End Higgs.
(** signalstrength.py:9-40, 42-88 [prod_modes], [decay_modes] *)
Inductive prod := PggF | Phw | Phz | Phv | Ptth | Pvv.
Inductive dec := Dbb | Dcc | Dtautau | Dmumu | Dww | Dzz | Dvv | Dzga | Dgaga.
Definition f_prod (x : prod) : wcs -> R := match x with PggF => ggF | Phw => hw | Phz => hz | Phv => hv | Ptth => tth | Pvv => vv_h end.
Definition f_dec (x : dec) : wcs -> R :=
  match x with Dbb => h_bb | Dcc => h_cc | Dtautau => h_tautau | Dmumu => h_mumu | Dww => h_ww | Dzz => h_zz | Dvv => h_vv | Dzga => h_zga | Dgaga => h_gaga end.
Definition s_prod (x : prod) : string := match x with PggF => "gg" | Phw => "Wh" | Phz => "Zh" | Phv => "Vh" | Ptth => "tth" | Pvv => "VBF" end%string.
Definition s_dec (x : dec) : string :=
  match x with Dbb => "bb" | Dcc => "cc" | Dtautau => "tautau" | Dmumu => "mumu" | Dww => "WW" | Dzz => "ZZ" | Dvv => "VV" | Dzga => "Zgamma" | Dgaga => "gammagamma" end%string.
(** 91-97; 106: the name of the observable *)
Definition higgs_signalstrength (GF : R) (c : wcs) (x : prod) (y : dec) : R := f_prod x c * f_dec y c / Gamma_h c GF.
Definition higgs_name (x : prod) (y : dec) : string := ("mu_" ++ s_prod x ++ "(h->" ++ s_dec y ++ ")")%string.

(** ** scattering/ee_ww.py:6-98 [ee_WW]; 10 E in GeV as an integer; rows: W, phiWB, phiD, phil3_11, phil3_22, ll_1221, phil1_11, phie_11 in units of 10^-3 *)
Definition ee_rows : list (Z * list Z) :=
  [(1613, [0; -196; -88; 69; -175; 87; -1; -1]); (1721, [-1; -186; -86; 72; -172; 86; -5; -6]); (1827, [-2; -180; -85; 76; -171; 86; -9; -9]);
   (1886, [-2; -178; -85; 78; -171; 86; -12; -11]); (1916, [-3; -178; -86; 79; -171; 86; -13; -12]); (1955, [-3; -177; -85; 81; -171; 86; -14; -13]);
   (1995, [-3; -176; -85; 82; -171; 85; -16; -13]); (2016, [-4; -176; -86; 83; -171; 86; -16; -14]); (2049, [-4; -175; -86; 84; -170; 85; -18; -14]);
   (2066, [-4; -175; -86; 85; -171; 86; -18; -15])]%Z.
Definition ee_keys : list wkey := [kW; phiWB; phiD; phil3 1 1; phil3 2 2; ll_1221; phil1 1 1; phie 1 1].
Definition ee_WW (c : wcs) (E10 : Z) : result R :=
  match find (fun r => Z.eqb (fst r) E10) ee_rows with
  | Some (_, r) => Ok (lin (combine (map (fun n => IZR n / 1000) r) (map c ee_keys)))
  | None => Err ValueError
  end.
(** ee_ww.py:109-141: first energy (182.66 GeV) of [ee_WW_diff], bins in cos theta from -1 to 1 in steps of 0.2; SM term and the same coefficients (order: phiD, phiWB, W,
    phie_11, phil1_11, phil3_11, phil3_22, ll_1221) for the two outermost bins; the other bins and energies have the same form and are not modelled *)
Definition ee_WW_diff_18266 (c : wcs) (lastbin : bool) : R :=
  let '(sm, l) := if lastbin then (5434 / 1000, [(46912 / 10000, c phiD); (923155 / 100000, c phiWB); (156709 / 100000, c kW); (- (282334 / 1000000), c (phie 1 1));
      (346857 / 100000, c (phil1 1 1)); (109466 / 10000, c (phil3 1 1)); (- (869668 / 100000), c (phil3 2 2)); (434834 / 100000, c ll_1221)])
    else (702 / 1000, [(- (120275 / 100000), c phiD); (- (190731 / 100000), c phiWB); (- (627597 / 1000000), c kW); (- (282334 / 1000000), c (phie 1 1));
      (- (150752 / 100000), c (phil1 1 1)); (172957 / 100000, c (phil3 1 1)); (- (168816 / 100000), c (phil3 2 2)); (844082 / 1000000, c ll_1221)]) in
  fst (RtoC sm + RtoC ((24622 / 100) ^ 2) * fold_right (fun rc s => (RtoC (fst rc) * snd rc + s)%C) (RtoC 0) l)%C.

(** ** neutrinos/trident.py:6-36: coefficients CVLL, CVLR of nu_a nu_mu mu mu for the final-state neutrino a *)
Inductive nuf := Ne | Nm | Nt.
Definition R_trident (s2w : R) (LL LR : nuf -> C) : R :=
  let CV_SM := 1 / 2 + 2 * s2w in let CA_SM := 1 / 2 in
  let CV a := (- LR a - LL a)%C in let CA a := (- LL a + LR a)%C in
  let CA_m := (RtoC CA_SM + CA Nm)%C in let CV_m := (RtoC CV_SM + CV Nm)%C in
  let sigma_SM := Rabs CA_SM ^ 2 + Rabs CV_SM ^ 2 in
  let sigma_tot := Cmod CA_m ^ 2 + Cmod CV_m ^ 2 + Cmod (CA Ne) ^ 2 + Cmod (CV Ne) ^ 2 + Cmod (CA Nt) ^ 2 + Cmod (CV Nt) ^ 2 in
  sigma_tot / sigma_SM.

(** ** mdms/al.py:7-22 *)
Definition al (GF m aSM : R) (C7 : C) : R := aSM + m ^ 2 * GF / sqrt 2 / PI ^ 2 * fst C7.
