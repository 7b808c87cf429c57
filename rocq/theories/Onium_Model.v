(** * Model of flavio/physics/quarkonium/Vll.py, Pll.py, Sll.py, Vllgamma.py: decays of quarkonium to leptons

    Floats are real numbers, complex numbers pairs of them.  The Wilson coefficients of the sector are a function of the name
    (a missing name is not modelled); the parameters and the running quantities of the meson at hand are fields of a record. *)
From Coq Require Import Reals.
From Coquelicot Require Import Complex.
From Coq Require Import String.
From Verif Require Import Base Basics_Model Decays_Model.
Local Open Scope R_scope.
Local Open Scope string_scope.

(** mass, lifetime, decay constants f and fT, anomaly matrix element a, electric charge and mass of the quark, its name twice ('cc' or 'bb'),
    lepton masses, alpha_e and alpha_s at the scale of the meson, G_F *)
Record onium := Onium { o_m : R; o_tau : R; o_f : R; o_fT : R; o_a : R; o_Q : R; o_mq : R; o_qq : string; o_ml : lep3 -> R;
  o_alpha : R; o_alphas : R; o_GF : R }.
Definition s3 (l : lep3) : string := match l with Le => "e" | Lmu => "mu" | Ltau => "tau" end.
(** Vll.py 15 [wc_sector] with 33-36, Pll.py 32-35, Vllgamma.py 31-34: the order of the leptons in the names of the vector coefficients (for two different leptons) *)
Definition ll_of (l1 l2 : lep3) : lep3 * lep3 :=
  match l1, l2 with
  | Le, Lmu | Lmu, Le => (Lmu, Le)
  | Le, Ltau | Ltau, Le => (Ltau, Le)
  | Lmu, Ltau | Ltau, Lmu => (Ltau, Lmu)
  | _, _ => (l1, l2)
  end.
Record vt := VT { VLc : C; VRc : C; TLc : C; TRc : C }.
Section Onium.
  Variable d : onium.
  Variable wc : string -> C.
  Local Notation r := RtoC.
  Let qq := o_qq d.
  (** ** Vll.py 17-44 [getVT_lfv] *)
  Definition getVT_lfv (l1 l2 : lep3) : vt :=
    let ee := sqrt (4 * PI * o_alpha d) in
    let '(a, b) := ll_of l1 l2 in let ll := s3 a ++ s3 b in
    let VL := (r (o_f d * o_m d) * (wc ("CVLL_" ++ ll ++ qq) + wc ("CVLR_" ++ ll ++ qq)))%C in
    let VR := (r (o_f d * o_m d) * (wc ("CVRR_" ++ ll ++ qq) + wc ("CVLR_" ++ qq ++ ll)))%C in
    let TR := (r (o_fT d * o_m d) * wc ("CTRR_" ++ s3 l1 ++ s3 l2 ++ qq) - r (ee * o_Q d * o_f d) * wc ("Cgamma_" ++ s3 l2 ++ s3 l1))%C in
    let TL := Cconj (r (o_fT d * o_m d) * wc ("CTRR_" ++ s3 l2 ++ s3 l1 ++ qq) - r (ee * o_Q d * o_f d) * wc ("Cgamma_" ++ s3 l1 ++ s3 l2))%C in
    if (lep3_eqb a l2 && lep3_eqb b l1)%bool then VT (Cconj VL) (Cconj VR) TL TR else VT VL VR TL TR.
  (** 46-72 [getVT_lfc] *)
  Definition getVT_lfc (l : lep3) : vt :=
    let ll := s3 l ++ s3 l in
    let ee2 := 4 * PI * o_alpha d in
    let ee := sqrt ee2 in
    let norm := 4 * o_GF d / sqrt 2 in
    let normDipole := norm * ee / (16 * PI ^ 2) * o_ml d l in
    let VL := (r (o_f d * o_m d) * (wc ("CVLL_" ++ ll ++ qq) * r norm + wc ("CVLR_" ++ ll ++ qq) * r norm - r (2 * o_Q d * ee2 / o_m d ^ 2)))%C in
    let VR := (r (o_f d * o_m d) * (wc ("CVRR_" ++ ll ++ qq) * r norm + wc ("CVLR_" ++ qq ++ ll) * r norm - r (2 * o_Q d * ee2 / o_m d ^ 2)))%C in
    let TR := (r (o_fT d * o_m d) * wc ("CTRR_" ++ ll ++ qq) * r norm - r (ee * o_Q d * o_f d) * wc ("C7_" ++ ll) * r normDipole)%C in
    VT VL VR (Cconj TR) TR.
  (** 75-98 [Vll_br] after the amplitudes *)
  Definition Vll_rate (y1 y2 : R) (a : vt) : R :=
    let y1s := y1 ^ 2 in let y2s := y2 ^ 2 in
    let ampV := (Cmod (VLc a) ^ 2 + Cmod (VRc a) ^ 2) / 12 * (2 - y1s - y2s - (y1s - y2s) ^ 2) + y1 * y2 * Re (VLc a * Cconj (VRc a))%C in
    let ampT := 4 / 3 * (Cmod (TLc a) ^ 2 + Cmod (TRc a) ^ 2) * (1 + y1s + y2s - 2 * (y1s - y2s) ^ 2) + 16 * y1 * y2 * Re (TRc a * Cconj (TLc a))%C in
    let ampVT := 2 * y1 * (1 + y2s - y1s) * Re (VRc a * Cconj (TRc a) + VLc a * Cconj (TLc a))%C
               + 2 * y2 * (1 + y1s - y2s) * Re (VLc a * Cconj (TRc a) + VRc a * Cconj (TLc a))%C in
    o_tau d * o_m d / (16 * PI) * sqrt (lambda_K 1 y1s y2s) * (ampV + ampT + ampVT).
  Definition Vll_br (l1 l2 : lep3) : R :=
    Vll_rate (o_ml d l1 / o_m d) (o_ml d l2 / o_m d) (if lep3_eqb l1 l2 then getVT_lfc l1 else getVT_lfv l1 l2).
  (** 101-127 *)
  Definition Vll_br_comb (l1 l2 : lep3) : R := Vll_br l1 l2 + Vll_br l2 l1.
  Definition Vll_ratio (l1 l2 : lep3) : R := Vll_br l1 l2 / Vll_br Le Le.
  Definition Vll_ratio_comb (l1 l2 : lep3) : R := (Vll_br l1 l2 + Vll_br l2 l1) / Vll_br Le Le.

  (** ** Pll.py 15-40 [getS_lfv]: the pair (SL, SR) *)
  Variables g g' : C. (* CeGGij, CeGGji *)
  Definition getS_P (l1 l2 : lep3) : C * C :=
    let ml1 := o_ml d l1 in let ml2 := o_ml d l2 in
    let fP := o_f d in let hP := o_m d ^ 2 * fP - o_a d in
    let '(a, b) := ll_of l1 l2 in let ll := s3 a ++ s3 b in
    let aPfac := (Ci * r (o_a d * 4 * PI / o_alphas d))%C in
    let X := (wc ("CVRR_" ++ ll ++ qq) - wc ("CVLR_" ++ qq ++ ll))%C in
    let Y := (wc ("CVLR_" ++ ll ++ qq) - wc ("CVLL_" ++ ll ++ qq))%C in
    let SR := (aPfac * g + r (hP / (4 * o_mq d)) * (wc ("CSRR_" ++ s3 l1 ++ s3 l2 ++ qq) - wc ("CSRL_" ++ s3 l1 ++ s3 l2 ++ qq))
               - r (fP / 2) * (r ml1 * X + r ml2 * Y))%C in
    let SL := (aPfac * g' + r (hP / (4 * o_mq d)) * Cconj (wc ("CSRL_" ++ s3 l2 ++ s3 l1 ++ qq) - wc ("CSRR_" ++ s3 l2 ++ s3 l1 ++ qq))
               - r (fP / 2) * (r ml2 * X + r ml1 * Y))%C in
    (SL, SR).
  (** Sll.py 16-37 [getS_lfv] *)
  Definition getS_S (l1 l2 : lep3) : C * C :=
    let fS := (r (o_f d) * - Ci)%C in
    let aPfac := (Ci * r (o_a d * 4 * PI / o_alphas d))%C in
    let SR := (aPfac * g + (r (o_m d) * fS / r 2) * (wc ("CSRR_" ++ s3 l1 ++ s3 l2 ++ qq) + wc ("CSRL_" ++ s3 l1 ++ s3 l2 ++ qq)))%C in
    let SL := (aPfac * g' + (r (o_m d) * fS / r 2) * Cconj (wc ("CSRL_" ++ s3 l2 ++ s3 l1 ++ qq) + wc ("CSRR_" ++ s3 l2 ++ s3 l1 ++ qq)))%C in
    (SL, SR).
  (** Pll.py 43-57, Sll.py 40-54 after the amplitudes *)
  Definition spin0_rate (y1 y2 : R) (s : C * C) : R :=
    let y1s := y1 ^ 2 in let y2s := y2 ^ 2 in
    o_tau d * o_m d / (16 * PI) * sqrt (lambda_K 1 y1s y2s)
    * ((1 - y1s - y2s) * (Cmod (fst s) ^ 2 + Cmod (snd s) ^ 2) - 4 * y1 * y2 * Re (fst s * Cconj (snd s))%C).
  Definition Pll_br (l1 l2 : lep3) : R := spin0_rate (o_ml d l1 / o_m d) (o_ml d l2 / o_m d) (getS_P l1 l2).
  Definition Sll_br (l1 l2 : lep3) : R := spin0_rate (o_ml d l1 / o_m d) (o_ml d l2 / o_m d) (getS_S l1 l2).
  (** Pll.py 66-69, Sll.py 63-66: the same CeGGij, CeGGji for both orders *)
  Definition Pll_br_comb (l1 l2 : lep3) : R := Pll_br l1 l2 + Pll_br l2 l1.
  Definition Sll_br_comb (l1 l2 : lep3) : R := Sll_br l1 l2 + Sll_br l2 l1.
End Onium.

(** ** Vllgamma.py *)
(** 62-101: kinematic functions *)
Definition F_A (y : R) : R := let mu := y ^ 2 in
  if Req_EM_T mu 0 then 2 / 9 else (8 - 45 * mu + 36 * mu ^ 2 + mu ^ 3 + 6 * (mu - 6) * mu ^ 2 * ln mu) / 36.
Definition F_S (y : R) : R := let mu := y ^ 2 in
  if Req_EM_T mu 0 then 1 / 12 else (1 - 6 * mu + 3 * mu ^ 2 * (1 - 2 * ln mu) + 2 * mu ^ 3) / 12.
Definition Ftilde_S (y : R) : R := let mu := y ^ 2 in
  if Req_EM_T mu 0 then 1 / 40 else (3 - 30 * mu - 20 * mu ^ 2 + 60 * mu ^ 3 - 15 * mu ^ 4 + 2 * mu ^ 5 - 60 * mu ^ 2 * ln mu) / 120.
Definition Fhat_P (y : R) : R := let mu := y ^ 2 in
  if Req_EM_T mu 0 then 0 else mu * (- 8 + 8 * mu ^ 2 - mu ^ 3 - 12 * mu * ln mu) / 12.
Definition Fhat_S (y : R) : R := let mu := y ^ 2 in
  if Req_EM_T mu 0 then 1 / 12 else Fhat_P y + 1 / 12.
Definition F_PA (y : R) : R :=
  if Req_EM_T y 0 then 0 else let mu := y ^ 2 in y * (1 + 4 * mu - 5 * mu ^ 2 + 2 * mu * (2 + mu) * ln mu) / 2.
Definition Ftilde_PA (y : R) : R :=
  if Req_EM_T y 0 then 0 else let mu := y ^ 2 in y * (1 + 9 * mu - 9 * mu ^ 2 - mu ^ 3 + 6 * mu * (1 + mu) * ln mu) / 3.
(** 18-58 [getWC_lfv]: scalar, pseudoscalar, axial-vector couplings and those of the operators with photons (the vector and tensor couplings that the
    function also returns are not used) *)
Record vg := VG { SLg : C; SRg : C; PLg : C; PRg : C; ALg : C; ARg : C; StLg : C; StRg : C; PtLg : C; PtRg : C }.
Section Gamma.
  Variable d : onium.
  Variable wc : string -> C.
  Local Notation r := RtoC.
  Variables cij cji tij tji : C. (* CeFFij, CeFFji, CeFFtildeij, CeFFtildeji *)
  Definition getWC_lfv (l1 l2 : lep3) : vg :=
    let qq := o_qq d in
    let '(a, b) := ll_of l1 l2 in let ll := s3 a ++ s3 b in
    let n := r (2 * o_m d * o_f d) in
    let l12 := s3 l1 ++ s3 l2 ++ qq in let l21 := s3 l2 ++ s3 l1 ++ qq in
    let AR := (n * (wc ("CVLR_" ++ qq ++ ll) - wc ("CVRR_" ++ ll ++ qq)))%C in
    let AL := (n * (wc ("CVLL_" ++ ll ++ qq) - wc ("CVLR_" ++ ll ++ qq)))%C in
    let k := r (4 * o_m d ^ 2 * o_f d) in
    let rev := (lep3_eqb a l2 && lep3_eqb b l1)%bool in
    {| SRg := n * (wc ("CSRR_" ++ l12) + wc ("CSRL_" ++ l12)); SLg := n * Cconj (wc ("CSRL_" ++ l21) + wc ("CSRR_" ++ l21));
       PRg := n * (wc ("CSRR_" ++ l12) - wc ("CSRL_" ++ l12)); PLg := n * Cconj (wc ("CSRL_" ++ l21) - wc ("CSRR_" ++ l21));
       ALg := if rev then Cconj AL else AL; ARg := if rev then Cconj AR else AR;
       StRg := k * cij; StLg := k * Cconj cji; PtRg := k * tij; PtLg := k * Cconj tji |}%C.
  (** 104-137 [Vllgamma_br]; equal lepton masses: [y] is unbound, UnboundLocalError *)
  Definition Vllgamma_br (l1 l2 : lep3) : result R :=
    let ml1 := o_ml d l1 in let ml2 := o_ml d l2 in
    let w := getWC_lfv l1 l2 in
    let sq z := Cmod z ^ 2 in
    let AV := sq (ALg w) + sq (ARg w) in
    let SP := sq (SLg w) + sq (PLg w) + sq (SRg w) + sq (PRg w) in
    let SPt := sq (StLg w) + sq (PtLg w) + sq (StRg w) + sq (PtRg w) in
    let SSt := Re (SLg w * Cconj (StLg w) + SRg w * Cconj (StRg w))%C in
    let PPt := Im (PLg w * Cconj (PtLg w) + PRg w * Cconj (PtRg w))%C in
    bind (if Rlt_dec ml1 ml2 then
            Ok (ml2 / o_m d, - Re (ALg w * Cconj (PRg w) + ARg w * Cconj (PLg w))%C, - Im (ALg w * Cconj (PtRg w) + ARg w * Cconj (PtLg w))%C)
          else if Rlt_dec ml2 ml1 then
            Ok (ml1 / o_m d, Re (ALg w * Cconj (PLg w) + ARg w * Cconj (PRg w))%C, Im (ALg w * Cconj (PtLg w) + ARg w * Cconj (PtRg w))%C)
          else Err UnboundLocalError) (fun '(y, I_AP, I_APt) =>
    Ok (o_alpha d * o_Q d ^ 2 * o_tau d * o_m d / (192 * PI ^ 2)
        * (AV * F_A y + SP * F_S y + I_AP * F_PA y + SPt * Ftilde_S y + SSt * Fhat_S y + PPt * Fhat_P y + I_APt * Ftilde_PA y))).
End Gamma.
