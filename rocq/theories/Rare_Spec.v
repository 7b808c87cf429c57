(** * Specification for rare decays with neutrinos or different leptons, radiative decays and loop functions (C175 - C185) *)
From Coq Require Import Reals.
From Coquelicot Require Import Coquelicot.
From Verif Require Import Base Angular_Model Decays_Model Rare_Model.
Local Open Scope R_scope.

Definition over_flavours (f : lep3 -> R) : R := f Le + f Lmu + f Ltau.
Definition sumsq (f : lep3 -> lep3 -> C) : R := over_flavours (fun i => over_flavours (fun j => Cmod (f i j) ^ 2)).

(** ** b -> q nu nu.  The left-handed coefficients: new physics for every pair of flavours, the Standard Model for equal flavours only *)
Definition sm_coefficient (d : nunu) : R := - (n_Xt d / n_s2w d) * (n_alphaZ d / n_alpha d).
Definition left_total (d : nunu) (i j : lep3) : C :=
  (n_CL d i j + RtoC (match i, j with Le, Le | Lmu, Lmu | Ltau, Ltau => sm_coefficient d | _, _ => 0 end))%C.
Definition vector_strength (d : nunu) : R := sumsq (fun i j => left_total d i j + n_CR d i j)%C.
Definition axial_strength (d : nunu) : R := sumsq (fun i j => left_total d i j - n_CR d i j)%C.
(** four times the squared mass of the B meson times the squared momentum of the light meson *)
Definition momentum (mB mM q2 : R) : R := ((mB + mM) ^ 2 - q2) * ((mB - mM) ^ 2 - q2).
(** G_F^2 alpha^2 |V|^2 / (768 pi^5 mB^3) sqrt(lambda) *)
Definition nunu_norm (d : nunu) (q2 : R) : R :=
  n_GF d ^ 2 * n_alpha d ^ 2 * Cmod (n_xit d) ^ 2 / (192 * PI ^ 5 * n_mB d ^ 3) * sqrt (momentum (n_mB d) (n_mM d) q2).
(** rates into longitudinal, parallel and perpendicular vector mesons *)
Definition rate_long (d : nunu) (q2 : R) : R := nunu_norm d q2 * (16 * n_mB d ^ 2 * n_mM d ^ 2 * n_ff d q2 FA12 ^ 2) * axial_strength d.
Definition rate_para (d : nunu) (q2 : R) : R := nunu_norm d q2 * (q2 * (n_mB d + n_mM d) ^ 2 / 2 * n_ff d q2 FA1 ^ 2) * axial_strength d.
Definition rate_perp (d : nunu) (q2 : R) : R :=
  nunu_norm d q2 * (q2 * momentum (n_mB d) (n_mM d) q2 / (2 * (n_mB d + n_mM d) ^ 2) * n_ff d q2 FV ^ 2) * vector_strength d.
Definition rate_P (d : nunu) (q2 : R) : R :=
  nunu_norm d q2 * (momentum (n_mB d) (n_mM d) q2 / 4 * n_ff d q2 Fplus ^ 2) * vector_strength d.
Definition share_of (neutral meson : string) : R := if string_dec meson neutral then 1 / 2 else 1.
Definition nunu_ok (d : nunu) : Prop := 0 < n_mB d /\ 0 <= n_mM d < n_mB d /\ 0 < n_alpha d /\ n_s2w d <> 0.
Definition q2max (d : nunu) : R := (n_mB d - n_mM d) ^ 2.
Definition ff_continuous (d : nunu) : Prop := forall k q2, 0 <= q2 <= q2max d -> continuous (fun q => n_ff d q k) q2.
(** other new physics, everything else unchanged *)
Definition with_np (d : nunu) (CL CR : lep3 -> lep3 -> C) : nunu :=
  NuNu (n_mB d) (n_mM d) (n_tau d) (n_GF d) (n_alpha d) (n_xit d) (n_s2w d) (n_Xt d) (n_alphaZ d) (n_meson d) (n_ff d) CL CR.

(** ** K -> pi nu nu *)
Definition charm (d : kpinunu) : R :=
  379 / 1000 * Rpower (q_mc d / (13 / 10)) (2155 / 1000) * Rpower (q_alphas d / (1187 / 10000)) (- (1417 / 1000)) + q_dPcu d.
(** the amplitude in the usual normalisation: top quarks and new physics; charm for equal flavours only *)
Definition same (i j : lep3) : R := match i, j with Le, Le | Lmu, Lmu | Ltau, Ltau => 1 | _, _ => 0 end.
Definition K_amplitude (d : kpinunu) (i j : lep3) : C :=
  (q_xit d * (RtoC (same i j * (q_Xt d * (q_alphaZ d / q_alpha d))) - RtoC (q_s2w d) * (q_CL d i j + q_CR d i j))
   + RtoC (same i j * charm d * q_Vus d ^ 4) * q_xic d)%C.
Definition K_factor (d : kpinunu) (kappa : R) : R :=
  kappa / (225 / 1000) ^ 8 * (q_alpha d / (10 / 1279)) ^ 2 * ((231 / 1000) / q_s2w d) ^ 2 / q_Vus d ^ 2 / 3.
Definition with_np_K (d : kpinunu) (CL CR : lep3 -> lep3 -> C) : kpinunu :=
  KPiNuNu (q_xit d) (q_xic d) (q_Vus d) (q_s2w d) (q_Xt d) (q_alpha d) (q_alphaZ d) (q_mc d) (q_alphas d) (q_dPcu d) (q_kplus d) (q_kL d) CL CR.
(** alpha_e at another scale *)
Definition with_alpha_K (d : kpinunu) (a : R) : kpinunu :=
  KPiNuNu (q_xit d) (q_xic d) (q_Vus d) (q_s2w d) (q_Xt d) a (q_alphaZ d) (q_mc d) (q_alphas d) (q_dPcu d) (q_kplus d) (q_kL d) (q_CL d) (q_CR d).
Definition no_np (d : kpinunu) : Prop := forall i j, q_CL d i j = RtoC 0 /\ q_CR d i j = RtoC 0.
