(** * Model of flavio/physics/dileptons/ppll.py and pplnu.py: Drell-Yan production of leptons

    Floats are real numbers, complex numbers pairs of them.  Parton luminosities (LHAPDF) are a function of two parton numbers and tau at the factorisation scale of the bin; the
    coefficients of the SMEFT in the Warsaw-up basis (arrays with four indices 0, 1, 2) are parameters, as is the CKM matrix. *)
From Coq Require Import Reals.
From Coquelicot Require Import Coquelicot.
From Coq Require Import String List ZArith.
From Verif Require Import Base Basics_Model Decays_Model.
Import ListNotations.
Local Open Scope R_scope.

Inductive ud := Up | Dn.
Inductive qk := qu | qc | qd | qs | qb.
Inductive hand := HL | HR.
(** the keys CVLL_e.., CVLR_e.., CVRL_e.., CVRR_e.., CSRL_e.., CSRR_e.., CTRR_e.. followed by u or d *)
Inductive dop := OVLL | OVLR | OVRL | OVRR | OSRL | OSRR | OTRR.
Definition arr := nat -> nat -> nat -> nat -> C.
Definition wcd := dop -> ud -> arr.
Record dpar := Dpar { p_mZ : R; p_tauZ : R; p_s2w : R; p_aem : R; p_mW : R; p_tauW : R; p_V : nat -> nat -> C }.
(** np.eye(3) *)
Definition eye (i j : nat) : R := if Nat.eqb i j then 1 else 0.
Definition sum3 (f : nat -> C) : C := (f 0%nat + f 1%nat + f 2%nat)%C.
(** zdecays/smeftew.py 12-15, 63-75: gV_SM and gA_SM for a light quark and a charged lepton with the given s2w *)
Definition Qch (q : ud) : R := match q with Up => 2 / 3 | Dn => - (1 / 3) end.
Definition T3 (q : ud) : R := match q with Up => 1 / 2 | Dn => - (1 / 2) end.
Definition gVq_SM (q : ud) (s2w : R) : R := T3 q / 2 - Qch q * (s2w * (10010 / 10000)).
Definition gAq_SM (q : ud) : R := T3 q / 2.
Definition gVl_SM (s2w : R) : R := - (1 / 2) / 2 - -1 * (s2w * (10010 / 10000)).
Definition gAl_SM : R := - (1 / 2) / 2.
(** ppll.py 12-43 [F_qqll_SM] *)
Definition F_qqll_SM (d : dpar) (q : ud) (Xq Xl : hand) (s : R) : C :=
  let Ql := -1 in
  let GammaZ := 1 / p_tauZ d in
  let e2 := 4 * PI * p_aem d in
  let g2 := e2 / p_s2w d * (9608 / 10000) in
  let gp2 := e2 / (1 - p_s2w d) * (10272 / 10000) in
  let g_cw := sqrt (g2 + gp2) in
  let s2w := gp2 / (g2 + gp2) in
  let gVq := g_cw * gVq_SM q s2w in let gVl := g_cw * gVl_SM s2w in
  let gAq := g_cw * gAq_SM q in let gAl := g_cw * gAl_SM in
  let gZq := match Xq with HL => gVq + gAq | HR => gVq - gAq end in
  let gZl := match Xl with HL => gVl + gAl | HR => gVl - gAl end in
  (RtoC (g2 * s2w * Qch q * Ql / s) + RtoC (gZq * gZl) / (RtoC (s - p_mZ d ^ 2) + Ci * RtoC (p_mZ d * GammaZ)))%C.
(** 46-55 [wceff_qqll_sm]: the first letter of the name is the chirality of the lepton *)
Definition wceff_qqll_sm (d : dpar) (s : R) : wcd := fun o q i j k l =>
  match o with
  | OVLL => F_qqll_SM d q HL HL s * RtoC (eye i j * eye k l)
  | OVLR => F_qqll_SM d q HR HL s * RtoC (eye i j * eye k l)
  | OVRL => F_qqll_SM d q HL HR s * RtoC (eye i j * eye k l)
  | OVRR => F_qqll_SM d q HR HR s * RtoC (eye i j * eye k l)
  | _ => RtoC 0
  end%C.
(** 58-87 [wceff_qqll_np]: the arrays of wcxf2arrays_symmetrized *)
Record smeft := Smeft { s_lq1 : arr; s_lq3 : arr; s_eu : arr; s_ed : arr; s_lu : arr; s_ld : arr; s_qe : arr; s_ledq : arr; s_lequ1 : arr; s_lequ3 : arr }.
Definition wceff_qqll_np (c : smeft) (V : nat -> nat -> C) : wcd := fun o q i j k l =>
  match o, q with
  | OVLL, Up => s_lq1 c i j k l - s_lq3 c i j k l
  | OVLL, Dn => sum3 (fun m => sum3 (fun n => (s_lq1 c i j m n + s_lq3 c i j m n) * Cconj (V m k) * V n l))
  | OVRR, Up => s_eu c i j k l
  | OVRR, Dn => s_ed c i j k l
  | OVLR, Up => s_lu c i j k l
  | OVLR, Dn => s_ld c i j k l
  | OVRL, Up => s_qe c k l i j
  | OVRL, Dn => sum3 (fun m => sum3 (fun n => s_qe c m n i j * Cconj (V m k) * V n l))
  | OSRL, Dn => sum3 (fun m => s_ledq c i j k m * V m l)
  | OSRR, Up => - s_lequ1 c i j k l
  | OTRR, Up => - s_lequ3 c i j k l
  | _, _ => RtoC 0
  end%C.
(** 90-100 *)
Definition pdf_flavor (q : qk) : Z := match q with qd => 1 | qu => 2 | qs => 3 | qc => 4 | qb => 5 end%Z.
Definition fermion_indices (q : qk) : ud * nat := match q with qu => (Up, 0) | qc => (Up, 1) | qd => (Dn, 0) | qs => (Dn, 1) | qb => (Dn, 2) end%nat.
Definition lepton_index (l : lep3) : nat := match l with Le => 0 | Lmu => 1 | Ltau => 2 end%nat.
Definition udb (a b : ud) : bool := match a, b with Up, Up | Dn, Dn => true | _, _ => false end.
(** 103-133 [sigma_qqll_partonic] *)
Definition sigma_qqll_partonic (sh : R) (q1 q2 : qk) (l : lep3) (wc : wcd) : result R :=
  let '(q, i1) := fermion_indices q1 in let '(q', i2) := fermion_indices q2 in
  if udb q q' then
    let il := lepton_index l in
    let a o i j := Cmod (wc o q il il i j) ^ 2 in
    Ok (sh / (144 * PI) * (a OVLL i1 i2 + a OVLR i1 i2 + a OVRL i1 i2 + a OVRR i1 i2 + 3 / 4 * a OSRL i1 i2 + 3 / 4 * a OSRR i1 i2 + 4 * a OTRR i1 i2
        + 3 / 4 * a OSRL i2 i1 + 3 / 4 * a OSRR i2 i1 + 4 * a OTRR i2 i1))
  else Err ValueError.
Definition duscb : list qk := [qd; qu; qs; qc; qb].
(** 136-165 [dsigma_dtau_qqll]; pairs of different charge are skipped, so that no exception occurs *)
Definition dsigma_dtau_qqll (L : Z -> Z -> R -> R) (s tau : R) (l : lep3) (wc : wcd) : R :=
  fold_left (fun sigma q1 => fold_left (fun sigma q2 =>
    match sigma_qqll_partonic (tau * s) q1 q2 l wc with
    | Ok y => if Req_EM_T y 0 then sigma else sigma + 2 * L (pdf_flavor q1) (- pdf_flavor q2)%Z tau * y
    | Err _ => sigma
    end) duscb sigma) duscb 0.
(** common.py 20-37 [add_dict] of the two dictionaries *)
Definition wc_add (a b : wcd) : wcd := fun o q i j k l => (a o q i j k l + b o q i j k l)%C.
(** 168-192 [sigma_qqll_int]; np: the coefficients of new physics, or None for newphys=False *)
Definition sigma_qqll_int (d : dpar) (L : Z -> Z -> R -> R) (s qmin qmax : R) (l : lep3) (np : option wcd) : R :=
  nintegrate (fun tau => dsigma_dtau_qqll L s tau l (match np with Some c => wc_add (wceff_qqll_sm d (tau * s)) c | None => wceff_qqll_sm d (tau * s) end)) (qmin ^ 2 / s) (qmax ^ 2 / s).
(** 195-211 [R_sigma_qqll_int] *)
Definition R_sigma_qqll_int (d : dpar) (L : Z -> Z -> R -> R) (s qmin qmax : R) (l : lep3) (c : smeft) : R :=
  sigma_qqll_int d L s qmin qmax l (Some (wceff_qqll_np c (p_V d))) / sigma_qqll_int d L s qmin qmax l None.

(** ** pplnu.py *)
(** the keys CVLL_enuud, CSRL_enuud, CSRR_enuud, CTRR_enuud *)
Inductive cop := CV | CSL | CSR | CT.
Definition wcc := cop -> arr.
(** 11-22 [F_qqlnu_SM] *)
Definition F_qqlnu_SM (d : dpar) (s : R) : C :=
  let GammaW := 1 / p_tauW d in
  let e2 := 4 * PI * p_aem d in
  let g2 := e2 / p_s2w d * (9608 / 10000) in
  (RtoC (g2 / 2) / (RtoC (s - p_mW d ^ 2) + Ci * RtoC (p_mW d * GammaW)))%C.
(** 24-32 [wceff_qqlnu_sm] *)
Definition wceff_qqlnu_sm (d : dpar) (s : R) : wcc := fun o i j k l =>
  match o with CV => sum3 (fun m => F_qqlnu_SM d s * RtoC (eye i j * eye m l) * p_V d k m) | _ => RtoC 0 end%C.
(** 34-53 [wceff_qqlnu_np] *)
Definition wceff_qqlnu_np (c : smeft) (V : nat -> nat -> C) : wcc := fun o i j k l =>
  match o with
  | CV => RtoC 2 * sum3 (fun m => s_lq3 c i j k m * V m l)
  | CSL => Cconj (s_ledq c j i l k)
  | CSR => sum3 (fun m => Cconj (s_lequ1 c j i m k) * V m l)
  | CT => sum3 (fun m => Cconj (s_lequ3 c j i m k) * V m l)
  end%C.
(** 58-98 [dsigma_dtau_qqlnu_partial]; i1, i2: indices of the quarks *)
Definition dsigma_dtau_qqlnu_partial (s tau umin umax : R) (i1 i2 : nat) (l : lep3) (wc : wcc) : R :=
  let il := lepton_index l in
  let '(prefac1, prefac2) :=
    if Rlt_dec umax tau then (umax * sqrt (1 - umax / tau) - umin * sqrt (1 - umin / tau), tau * (sqrt (1 - umax / tau) - sqrt (1 - umin / tau)))
    else (- umin * sqrt (1 - umin / tau), - tau * sqrt (1 - umin / tau)) in
  let a o nu := Cmod (wc o il nu i1 i2) ^ 2 in
  fold_left (fun S nu => S + s * (prefac1 * (16 * a CT nu + a CV nu) - prefac2 * (3 * a CSL nu + 3 * a CSR nu + 16 * a CT nu + 4 * a CV nu))) [0; 1; 2]%nat 0 / (576 * PI).
(** 102-128 [dsigma_dtau_qqlnu] *)
Definition dsigma_dtau_qqlnu (L : Z -> Z -> R -> R) (s tau umin umax : R) (l : lep3) (wc : wcc) : R :=
  fold_left (fun sigma q1 => fold_left (fun sigma q2 =>
    let y := dsigma_dtau_qqlnu_partial s tau umin umax (snd (fermion_indices q1)) (snd (fermion_indices q2)) l wc in
    if Req_EM_T y 0 then sigma else sigma + 2 * L (pdf_flavor q1) (- pdf_flavor q2)%Z tau * y + 2 * L (pdf_flavor q2) (- pdf_flavor q1)%Z tau * y) [qd; qs; qb] sigma) [qu; qc] 0.
Definition wcc_add (a b : wcc) : wcc := fun o i j k l => (a o i j k l + b o i j k l)%C.
(** 130-158 [sigma_qqlnu_int] *)
Definition sigma_qqlnu_int (d : dpar) (L : Z -> Z -> R -> R) (s mTmin mTmax : R) (l : lep3) (np : option wcc) : R :=
  let umin := mTmin ^ 2 / s in let umax := mTmax ^ 2 / s in
  nintegrate (fun tau => dsigma_dtau_qqlnu L s tau umin umax l (match np with Some c => wcc_add (wceff_qqlnu_sm d (tau * s)) c | None => wceff_qqlnu_sm d (tau * s) end)) umin 1.
(** 160-176 [R_sigma_qqlnu_int] *)
Definition R_sigma_qqlnu_int (d : dpar) (L : Z -> Z -> R -> R) (s mTmin mTmax : R) (l : lep3) (c : smeft) : R :=
  sigma_qqlnu_int d L s mTmin mTmax l (Some (wceff_qqlnu_np c (p_V d))) / sigma_qqlnu_int d L s mTmin mTmax l None.
