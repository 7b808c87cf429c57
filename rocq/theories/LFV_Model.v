(** * Model of lepton-flavour violating decays, mu-e conversion and electric dipole moments
      flavio/physics/taudecays/{tau3l,tauvl,taupl}.py, mudecays/{mu3e,mueconversion}.py, edms/{common,neutronedm,paraedm,slcouplings}.py
      (taudecays/common.py and taulgamma.py are modelled in Leptonic_Model)

    Simplifications: floats are exact reals, complex floats are [C]; running couplings, masses and decay constants are parameters; the coefficients returned by
    [wc_obj.get_wc(sector, ...)] are a function of the sector and the name of the coefficient (a KeyError for a name that does not exist is not modelled);
    a dictionary of effective coefficients is a function that is 0 where nothing was stored (only stored entries are read). *)
From Coq Require Import Reals List String ZArith.
From Coquelicot Require Import Coquelicot.
From Verif Require Import Base Basics_Model Decays_Model Leptonic_Model.
Import ListNotations.
Local Open Scope R_scope.

(** get_wc: sector -> name -> coefficient *)
Definition getwc := string -> string -> C.
Definition ln_ (l : lep3) : string := match l with Le => "e" | Lmu => "mu" | Ltau => "tau" end%string.

(** ** taudecays/tau3l.py *)
Inductive eop := E7 | E7p | EVLL | EVLR | EVRL | EVRR | ESLL | ESLR | ESRL | ESRR | ETLL | ETRR.
Definition a2 (z : C) : R := Cmod z ^ 2.
(** 15-24 *)
Definition BR_taumuee (mtau me : R) (w : eop -> C) : R :=
  a2 (w EVLL) + a2 (w EVLR) + a2 (w EVRL) + a2 (w EVRR)
  + 1 / 4 * (a2 (w ESLL) + a2 (w ESLR) + a2 (w ESRL) + a2 (w ESRR))
  + 12 * (a2 (w ETLL) + a2 (w ETRR))
  + 8 * fst (w E7 * Cconj (w EVLL + w EVLR) + w E7p * Cconj (w EVRL + w EVRR))%C
  + 32 * (a2 (w E7) + a2 (w E7p)) * (ln (mtau ^ 2 / me ^ 2) - 3).
(** 27-37 *)
Definition BR_tau3mu (mtau mmu : R) (w : eop -> C) : R :=
  2 * a2 (w EVLL) + a2 (w EVLR) + a2 (w EVRL) + 2 * a2 (w EVRR)
  + 1 / 8 * (a2 (w ESLL) + a2 (w ESRR))
  + 8 * fst (w E7 * Cconj (RtoC 2 * w EVLL + w EVLR) + w E7p * Cconj (w EVRL + RtoC 2 * w EVRR))%C
  + 32 * (a2 (w E7) + a2 (w E7p)) * (ln (mtau ^ 2 / mmu ^ 2) - 11 / 4).
(** 40-43 *)
Definition BR_taumuemu (w : eop -> C) : R :=
  2 * a2 (w EVLL) + a2 (w EVLR) + a2 (w EVRL) + 2 * a2 (w EVRR) + 1 / 8 * (a2 (w ESLL) + a2 (w ESRR)).
(** 8-12, 49-52 [wcxf_sector_names]; KeyError for other tuples *)
Definition sector3 (l0 l1 l2 l3 : lep3) : result string :=
  if lep3_eqb l2 l3 then match l0, l1 with Ltau, Lmu => Ok "mutau"%string | Ltau, Le => Ok "taue"%string | Lmu, Le => Ok "mue"%string | _, _ => Err KeyError end
  else match l0, l1, l2, l3 with Ltau, Le, Lmu, Le => Ok "etauemu"%string | Ltau, Lmu, Le, Lmu => Ok "muemutau"%string | _, _, _, _ => Err KeyError end.
(** 46-124 [wc_eff]; e = sqrt(4 pi alpha) *)
Definition wc_eff (alpha ml0 : R) (get : getwc) (l0 l1 l2 l3 : lep3) : result (eop -> C) :=
  bind (sector3 l0 l1 l2 l3) (fun sec =>
    let wc := get sec in
    let k := RtoC (sqrt (4 * PI * alpha) / ml0) in
    match l0, l1, l2, l3 with
    | Ltau, Lmu, Lmu, Lmu => Ok (fun o => match o with
        | E7 => k * wc "Cgamma_taumu"%string | E7p => k * Cconj (wc "Cgamma_mutau"%string) | EVLL => wc "CVLL_mumutaumu"%string | EVLR => wc "CVLR_taumumumu"%string
        | EVRL => wc "CVLR_mumutaumu"%string | EVRR => wc "CVRR_mumutaumu"%string | ESRR => wc "CSRR_mumutaumu"%string | ESLL => Cconj (wc "CSRR_mumumutau"%string) | _ => RtoC 0 end%C)
    | Ltau, Le, Le, Le => Ok (fun o => match o with
        | E7 => k * wc "Cgamma_taue"%string | E7p => k * Cconj (wc "Cgamma_etau"%string) | EVLL => wc "CVLL_eetaue"%string | EVLR => wc "CVLR_taueee"%string
        | EVRL => wc "CVLR_eetaue"%string | EVRR => wc "CVRR_eetaue"%string | ESRR => wc "CSRR_eetaue"%string | ESLL => Cconj (wc "CSRR_eeetau"%string) | _ => RtoC 0 end%C)
    | Ltau, Lmu, Le, Le => Ok (fun o => match o with
        | E7 => k * wc "Cgamma_taumu"%string | E7p => k * Cconj (wc "Cgamma_mutau"%string) | EVLL => wc "CVLL_eetaumu"%string | EVLR => wc "CVLR_taumuee"%string
        | EVRL => wc "CVLR_eetaumu"%string | EVRR => wc "CVRR_eetaumu"%string | ESRR => wc "CSRR_eetaumu"%string - wc "CSRR_taueemu"%string / RtoC 2
        | ESLL => Cconj (wc "CSRR_eemutau"%string) - Cconj (wc "CSRR_mueetau"%string) / RtoC 2 | ESLR => RtoC (-2) * wc "CVLR_taueemu"%string
        | ESRL => RtoC (-2) * Cconj (wc "CVLR_mueetau"%string) | ETLL => - Cconj (wc "CSRR_mueetau"%string) / RtoC 8 | ETRR => - wc "CSRR_taueemu"%string / RtoC 8 end%C)
    | Ltau, Le, Lmu, Lmu => Ok (fun o => match o with
        | E7 => k * wc "Cgamma_taue"%string | E7p => k * Cconj (wc "Cgamma_etau"%string) | EVLL => wc "CVLL_muetaumu"%string | EVLR => wc "CVLR_tauemumu"%string
        | EVRL => wc "CVLR_mumutaue"%string | EVRR => wc "CVRR_muetaumu"%string | ESRR => wc "CSRR_tauemumu"%string - wc "CSRR_muetaumu"%string / RtoC 2
        | ESLL => Cconj (wc "CSRR_mumuetau"%string) - Cconj (wc "CSRR_emumutau"%string) / RtoC 2 | ESLR => RtoC (-2) * wc "CVLR_taumumue"%string
        | ESRL => RtoC (-2) * wc "CVLR_muetaumu"%string | ETLL => - Cconj (wc "CSRR_emumutau"%string) / RtoC 8 | ETRR => - wc "CSRR_muetaumu"%string / RtoC 8 end%C)
    | Lmu, Le, Le, Le => Ok (fun o => match o with
        | E7 => k * wc "Cgamma_mue"%string | E7p => k * Cconj (wc "Cgamma_emu"%string) | EVLL => wc "CVLL_eemue"%string | EVLR => wc "CVLR_mueee"%string
        | EVRL => wc "CVLR_eemue"%string | EVRR => wc "CVRR_eemue"%string | ESRR => wc "CSRR_eemue"%string | ESLL => Cconj (wc "CSRR_eeemu"%string) | _ => RtoC 0 end%C)
    | Ltau, Le, Lmu, Le => Ok (fun o => match o with
        | EVLL => wc "CVLL_muetaue"%string | EVLR => wc "CVLR_tauemue"%string | EVRL => wc "CVLR_muetaue"%string | EVRR => wc "CVRR_muetaue"%string
        | ESRR => wc "CSRR_muetaue"%string | ESLL => Cconj (wc "CSRR_emuetau"%string) | _ => RtoC 0 end%C)
    | Ltau, Lmu, Le, Lmu => Ok (fun o => match o with
        | EVLL => Cconj (wc "CVLL_muemutau"%string) | EVLR => wc "CVLR_taumuemu"%string | EVRL => Cconj (wc "CVLR_muemutau"%string) | EVRR => Cconj (wc "CVRR_muemutau"%string)
        | ESRR => Cconj (wc "CSRR_muemutau"%string) | ESLL => wc "CSRR_emutaumu"%string | _ => RtoC 0 end%C)
    | _, _, _, _ => Err ValueError
    end).
(** 127-147 [BR_taul1l2l3]; parameters: masses, lifetime, alpha at the scale *)
Definition BR_taul1l2l3 (m : lep3 -> R) (tau_tau alpha : R) (get : getwc) (l1 l2 l3 : lep3) : result R :=
  bind (wc_eff alpha (m Ltau) get Ltau l1 l2 l3) (fun w =>
    let pre := tau_tau * m Ltau ^ 5 / 192 / 8 / PI ^ 3 in
    match l1, l2, l3 with
    | Lmu, Le, Le => Ok (pre * BR_taumuee (m Ltau) (m Le) w)
    | Le, Lmu, Lmu => Ok (pre * BR_taumuee (m Ltau) (m Lmu) w)
    | Lmu, Lmu, Lmu => Ok (pre * BR_tau3mu (m Ltau) (m Lmu) w)
    | Le, Le, Le => Ok (pre * BR_tau3mu (m Ltau) (m Le) w)
    | Le, Lmu, Le => Ok (pre * BR_taumuemu w)
    | Lmu, Le, Lmu => Ok (pre * BR_taumuemu w)
    | _, _, _ => Err UnboundLocalError
    end).
(** ** mudecays/mu3e.py:9-16 *)
Definition BR_mu3e (m : lep3 -> R) (GF alpha : R) (get : getwc) : result R :=
  bind (wc_eff alpha (m Lmu) get Lmu Le Le Le) (fun w => Ok (1 / (8 * GF ^ 2) * BR_tau3mu (m Lmu) (m Le) w)).
(** ** taudecays/taulgamma.py:13-25 with the lookup of the coefficients *)
Definition BR_lgamma (m : lep3 -> R) (tau : R) (get : getwc) (l1 l2 : lep3) : result R :=
  bind (match l1, l2 with Ltau, Lmu => Ok "mutau"%string | Ltau, Le => Ok "taue"%string | Lmu, Le => Ok "mue"%string | _, _ => Err KeyError end) (fun sec =>
    let wc := get sec in
    Ok (BR_llgamma tau (m l1) (m l2) (wc ("Cgamma_" ++ ln_ l1 ++ ln_ l2)%string) (wc ("Cgamma_" ++ ln_ l2 ++ ln_ l1)%string))).

(** ** edms/common.py:61-81 [proton_charges]: the scalar charges; mu, md, ms are the running masses with three flavours *)
Record charges := Charges { gSp : R; gSm : R; gSs : R }.
Definition proton_charges (sigma_piN gS_umd sigma_s mu md ms : R) : charges := Charges (sigma_piN / ((md + mu) / 2)) gS_umd (sigma_s / ms).

(** ** mudecays/mueconversion.py:7-69 [CR_mue] *)
Record nucleus := Nucleus { n_D : R; n_Sp : R; n_Vp : R; n_Sn : R; n_Vn : R; n_capt : R }.
Section Conversion.
  Variables (mm GF : R) (pc : charges) (nu : nucleus) (wc : string -> C).
  Definition CR_mue : R :=
    let GuSp := (gSp pc + gSm pc) / 2 in let GdSp := (gSp pc - gSm pc) / 2 in let GsSp := gSs pc in
    let GuSn := GdSp in let GdSn := GuSp in let GsSn := GsSp in
    let mm52 := Rpower mm (5 / 2) in
    let D := RtoC (n_D nu * mm52) in let Sp := RtoC (n_Sp nu * mm52) in let Vp := RtoC (n_Vp nu * mm52) in
    let Sn := RtoC (n_Sn nu * mm52) in let Vn := RtoC (n_Vn nu * mm52) in
    let prefac := - sqrt 2 / GF in
    let AL := (RtoC (prefac / (4 * mm)) * wc "Cgamma_emu"%string)%C in
    let AR := (RtoC (prefac / (4 * mm)) * Cconj (wc "Cgamma_mue"%string))%C in
    let p := RtoC prefac in
    let gRVu := (p * (wc "CVRR_mueuu"%string + wc "CVLR_uumue"%string) / RtoC 2)%C in
    let gRVd := (p * (wc "CVRR_muedd"%string + wc "CVLR_ddmue"%string) / RtoC 2)%C in
    let gLVu := (p * (wc "CVLR_mueuu"%string + wc "CVLL_mueuu"%string) / RtoC 2)%C in
    let gLVd := (p * (wc "CVLR_muedd"%string + wc "CVLL_muedd"%string) / RtoC 2)%C in
    let gRSu := (p * Cconj (wc "CSRR_emuuu"%string + wc "CSRL_emuuu"%string) / RtoC 2)%C in
    let gRSd := (p * Cconj (wc "CSRR_emudd"%string + wc "CSRL_emudd"%string) / RtoC 2)%C in
    let gRSs := (p * Cconj (wc "CSRR_emuss"%string + wc "CSRL_emuss"%string) / RtoC 2)%C in
    let gLSu := (p * (wc "CSRR_mueuu"%string + wc "CSRL_mueuu"%string) / RtoC 2)%C in
    let gLSd := (p * (wc "CSRR_muedd"%string + wc "CSRL_muedd"%string) / RtoC 2)%C in
    let gLSs := (p * (wc "CSRR_muess"%string + wc "CSRL_muess"%string) / RtoC 2)%C in
    let lhc := (Cconj AR * D + (RtoC 2 * gLVu + gLVd) * Vp + (gLVu + RtoC 2 * gLVd) * Vn
                + (RtoC GuSp * gLSu + RtoC GdSp * gLSd + RtoC GsSp * gLSs) * Sp + (RtoC GuSn * gLSu + RtoC GdSn * gLSd + RtoC GsSn * gLSs) * Sn)%C in
    let rhc := (Cconj AL * D + (RtoC 2 * gRVu + gRVd) * Vp + (gRVu + RtoC 2 * gRVd) * Vn
                + (RtoC GuSp * gRSu + RtoC GdSp * gRSd + RtoC GsSp * gRSs) * Sp + (RtoC GuSn * gRSu + RtoC GdSn * gRSd + RtoC GsSn * gRSs) * Sn)%C in
    2 * GF ^ 2 * (Cmod lhc ^ 2 + Cmod rhc ^ 2) / n_capt nu.
End Conversion.

(** ** taudecays/tauvl.py *)
Inductive vec := Vrho | Vphi.
(** 15-23 [get_wcs]; q is one character, [2 * q] the string qq *)
Definition get_wcs (wc : string -> C) (q lep : string) : list C :=
  [wc ("CVLL_tau" ++ lep ++ q ++ q)%string; wc ("CVLR_tau" ++ lep ++ q ++ q)%string; wc ("CVLR_" ++ q ++ q ++ "tau" ++ lep)%string; wc ("CVRR_tau" ++ lep ++ q ++ q)%string;
   wc ("CTRR_" ++ lep ++ "tau" ++ q ++ q)%string; wc ("CTRR_tau" ++ lep ++ q ++ q)%string].
(** 25-54 [br_tauvl]; lep is e or mu (KeyError for tau) *)
Definition sec_tau (lep : lep3) : result string := match lep with Lmu => Ok "mutau"%string | Le => Ok "taue"%string | Ltau => Err KeyError end.
Record vpar := Vpar { v_tau : R; v_alpha : R; v_mtau : R; v_ml : lep3 -> R; v_mV : R; v_fV : R; v_fT : R }.
Definition br_tauvl (d : vpar) (get : getwc) (V : vec) (lep : lep3) : result R :=
  bind (sec_tau lep) (fun sec =>
    let wc := get sec in let l := ln_ lep in
    let e := sqrt (4 * PI * v_alpha d) in
    let mV := v_mV d in let fV := v_fV d in let fT := RtoC (v_fT d) in
    let Ctl := wc ("Cgamma_tau" ++ l)%string in let Clt := wc ("Cgamma_" ++ l ++ "tau")%string in
    let '(g, KV) := match V with
      | Vrho => (map (fun ab => ((fst ab - snd ab) / RtoC (sqrt 2))%C) (combine (get_wcs wc "u"%string l) (get_wcs wc "d"%string l)), - 1 / sqrt 2 * e)
      | Vphi => (get_wcs wc "s"%string l, 1 / 3 * e) end in
    let n k := nth k g (RtoC 0) in
    let gL := (RtoC (mV * fV / 2) * (n 0%nat + n 1%nat))%C in
    let gR := (RtoC (mV * fV / 2) * (n 2%nat + n 3%nat))%C in
    let gTL := (fT * Cconj (n 4%nat) + RtoC (2 * fV * KV / mV) * Cconj Clt)%C in
    let gtTL := (- fT * Cconj (n 4%nat))%C in
    let gTR := (fT * n 5%nat + RtoC (2 * fV * KV / mV) * Ctl)%C in
    let gtTR := (fT * n 5%nat)%C in
    Ok (v_tau d * GammaFvf (v_mtau d) mV (v_ml d lep) gL gR gTL gtTL gTR gtTR)).

(** ** taudecays/taupl.py *)
Record ppar := Ppar { q_tau : R; q_mtau : R; q_ml : lep3 -> R; q_mP : R; q_fP : R; q_GF : R; q_alpha : R; q_mu : R; q_md : R; q_rmd : R; q_rms : R; q_xit : C }.
(** 15-53 pi0 *)
Definition br_taupil (d : ppar) (get : getwc) (lep : lep3) : result R :=
  bind (sec_tau lep) (fun sec =>
    let wc := get sec in let l := ln_ lep in
    let ml := RtoC (q_ml d lep) in let mt := RtoC (q_mtau d) in
    let FLL q := wc ("CVLL_tau" ++ l ++ q ++ q)%string in let FRR q := wc ("CVRR_tau" ++ l ++ q ++ q)%string in
    let FLR q := wc ("CVLR_tau" ++ l ++ q ++ q)%string in let FRL q := wc ("CVLR_" ++ q ++ q ++ "tau" ++ l)%string in
    let SRR q := wc ("CSRR_tau" ++ l ++ q ++ q)%string in let SRL q := wc ("CSRL_tau" ++ l ++ q ++ q)%string in
    let SLL q := Cconj (wc ("CSRR_" ++ l ++ "tau" ++ q ++ q)%string) in let SLR q := Cconj (wc ("CSRL_" ++ l ++ "tau" ++ q ++ q)%string) in
    let s2 := RtoC (sqrt 2) in let fP := RtoC (q_fP d) in
    let fS := RtoC (q_fP d * q_mP d ^ 2 / (q_mu d + q_md d)) in
    let u := "u"%string in let dd := "d"%string in
    let vL := (fP * ((FLR u - FLL u) / RtoC 2 - (FLR dd - FLL dd) / RtoC 2) / s2)%C in
    let vR := (fP * ((FRR u - FRL u) / RtoC 2 - (FRR dd - FRL dd) / RtoC 2) / s2)%C in
    let sL := (fS * ((SLR u - SLL u) / RtoC 2 - (SLR dd - SLL dd) / RtoC 2) / s2)%C in
    let sR := (fS * ((SRR u - SRL u) / RtoC 2 - (SRR dd - SRL dd) / RtoC 2) / s2)%C in
    let gL := (sL + (- vL * ml + vR * mt))%C in
    let gR := (sR + (- vR * ml + vL * mt))%C in
    Ok (q_tau d * GammaFsf (q_mtau d) (q_mP d) (q_ml d lep) gL gR)).
(** 55-76 K0; the sector is sdtaue or sdtaumu *)
Definition br_tauKl (d : ppar) (get : getwc) (lep : lep3) : R :=
  let qqll := ("sdtau" ++ ln_ lep)%string in
  let wc := get qqll in
  let ml := q_ml d lep in let mt := q_mtau d in
  let C9m := (- wc ("C9_" ++ qqll)%string + wc ("C9p_" ++ qqll)%string)%C in
  let C10m := (- wc ("C10_" ++ qqll)%string + wc ("C10p_" ++ qqll)%string)%C in
  let CSm := (wc ("CS_" ++ qqll)%string - wc ("CSp_" ++ qqll)%string)%C in
  let CPm := (wc ("CP_" ++ qqll)%string - wc ("CPp_" ++ qqll)%string)%C in
  let Kv := (q_xit d * RtoC (4 * q_GF d / sqrt 2 * q_alpha d / (4 * PI)))%C in
  let Ks := (Kv * RtoC (q_rms d))%C in
  let f := RtoC (q_fP d) in
  let gV := (- f * Kv * C9m / RtoC 2)%C in let gA := (- f * Kv * C10m / RtoC 2)%C in
  let gS := (- f * Ks * RtoC (q_mP d ^ 2) * CSm / RtoC 2 / RtoC (q_rmd d + q_rms d))%C in
  let gP := (- f * Ks * RtoC (q_mP d ^ 2) * CPm / RtoC 2 / RtoC (q_rmd d + q_rms d))%C in
  let gVS := (gS + gV * RtoC (mt - ml))%C in let gAP := (gP - gA * RtoC (mt + ml))%C in
  q_tau d * GammaFsf mt (q_mP d) ml (gVS - gAP)%C (gVS + gAP)%C.

(** ** edms/common.py *)
Record edmpar := Edmpar { e_GF : R; e_mlep : lep3 -> R; e_alpha : R -> nat -> R; e_mu : R -> nat -> R; e_md : R -> nat -> R; e_ms : R -> nat -> R;
  e_gTu : R; e_gTd : R; e_gTs : R; e_rhou : R; e_rhod : R; e_rhos : R; e_betaG : R;
  e_sigpi : R; e_gSumd : R; e_sigs : R; e_ade : string -> R; e_aCS : string -> R }.
(** 7 [eft_nf_out] *)
Definition eft_nf_out (eft : string) : result nat :=
  if String.eqb eft "WET" then Ok 5%nat else if String.eqb eft "WET-4" then Ok 4%nat else if String.eqb eft "WET-3" then Ok 3%nat else if String.eqb eft "WET-2" then Ok 2%nat else Err KeyError.
Section EDM.
  Variable d : edmpar.
  (** 10-22 [get_m] *)
  Definition get_m (f : string) (scale : R) (eft : string) : result R :=
    if String.eqb f "e" then Ok (e_mlep d Le) else if String.eqb f "mu" then Ok (e_mlep d Lmu) else if String.eqb f "tau" then Ok (e_mlep d Ltau)
    else bind (eft_nf_out eft) (fun nf =>
      if String.eqb f "u" then Ok (e_md d scale nf)
      else if String.eqb f "d" then Ok (e_mu d scale nf)
      else if String.eqb f "s" then Ok (e_ms d scale nf)
      else Err ValueError).
  (** 25-39 [edm_f] *)
  Definition edm_f (wc : string -> C) (f : string) (scale : R) (eft : string) : result R :=
    bind (get_m f scale eft) (fun m => bind (eft_nf_out eft) (fun nf =>
      let e := sqrt (4 * PI * e_alpha d scale nf) in
      let pre := 4 * e_GF d / sqrt 2 * e / (16 * PI ^ 2) * m in
      Ok (2 * pre * snd (wc ("C7_" ++ f ++ f)%string)))).
  (** 42-54 [cedm_f] *)
  Definition cedm_f (wc : string -> C) (f : string) (scale : R) (eft : string) : result R :=
    bind (get_m f scale eft) (fun m =>
      let pre_gs := 4 * e_GF d / sqrt 2 / (16 * PI ^ 2) * m in
      Ok (2 * pre_gs * snd (wc ("C8_" ++ f ++ f)%string))).
  (** ** edms/neutronedm.py:7-19, 22-33; CGtilde is a real coefficient: its real part *)
  Definition nedm (wc : string -> C) : result R :=
    bind (edm_f wc "d" 2 "WET-3") (fun ed => bind (edm_f wc "u" 2 "WET-3") (fun eu => bind (edm_f wc "s" 2 "WET-3") (fun es =>
    bind (cedm_f wc "d" 2 "WET-3") (fun cd => bind (cedm_f wc "u" 2 "WET-3") (fun cu => bind (cedm_f wc "s" 2 "WET-3") (fun cs =>
      Ok (Rabs (e_gTu d * ed + e_gTd d * eu + e_gTs d * es + e_rhod d * cd + e_rhou d * cu + e_rhos d * cs + e_betaG d * fst (wc "CGtilde"%string))))))))).
  (** ** edms/slcouplings.py:6-13 [CS] *)
  Definition CSc (wc : string -> C) (scale Z N : R) : R :=
    let me := proton_charges (e_sigpi d) (e_gSumd d) (e_sigs d) (e_mu d scale 3) (e_md d scale 3) (e_ms d scale 3) in
    let CSu := - (snd (wc "CSRR_eeuu"%string) + snd (wc "CSRL_eeuu"%string)) in
    let CSd := - (snd (wc "CSRR_eedd"%string) + snd (wc "CSRL_eedd"%string)) in
    let CS0 := gSp me * (CSu + CSd) in let CS1 := gSm me * (CSu - CSd) in
    CS0 + (Z - N) / (Z + N) * CS1.
  (** ** edms/paraedm.py:9-28 [atoms], [molecules]: Z and N; 34-50 [omega_para], [d_para] *)
  Definition ZN (x : string) : result (R * R) :=
    if String.eqb x "Tl" then Ok (3, 4) else if String.eqb x "YbF" then Ok (1, 1) else if String.eqb x "HfF" then Ok (1, 1) else if String.eqb x "ThO" then Ok (1, 1) else Err KeyError.
  Definition para (wc : string -> C) (x : string) : result R :=
    bind (ZN x) (fun zn => bind (edm_f wc "e" 2 "WET-3") (fun de => Ok (e_ade d x * de + e_aCS d x * CSc wc 2 (fst zn) (snd zn)))).
End EDM.
