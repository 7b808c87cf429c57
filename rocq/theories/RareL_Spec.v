(** * Specification for B decays to leptons of different flavour (C182, C183) *)
From Coq Require Import Reals.
From Coquelicot Require Import Coquelicot.
From Verif Require Import Base Angular_Model Decays_Model Rare_Model Rare_Spec.
Local Open Scope R_scope.

Definition lfv_ok (d : lfvdecay) : Prop := 0 < f_mB d /\ 0 <= f_mM d < f_mB d /\ 0 < f_mb d /\ (forall l, 0 < f_ml d l) /\ 0 <= f_tau d.
Definition thr (d : lfvdecay) (l1 l2 : lep3) : R := (f_ml d l1 + f_ml d l2) ^ 2.
Definition top (d : lfvdecay) : R := (f_mB d - f_mM d) ^ 2.
Definition lfv_cont (d : lfvdecay) : Prop := forall k q2, 0 < q2 <= top d -> continuous (fun q => f_ff d q k) q2.
(** phase space of the mesons and of the leptons, and the coupling G_F alpha V / (sqrt(2) pi) *)
Definition lepton_phase (d : lfvdecay) (l1 l2 : lep3) (q2 : R) : R := (q2 - (f_ml d l1 + f_ml d l2) ^ 2) * (q2 - (f_ml d l1 - f_ml d l2) ^ 2).
Definition lfv_norm (d : lfvdecay) (l1 l2 : lep3) (q2 : R) : R :=
  (f_GF d * f_alpha d / (sqrt 2 * PI)) ^ 2 * Cmod (f_xit d) ^ 2 * sqrt (momentum (f_mB d) (f_mM d) q2) * sqrt (lepton_phase d l1 l2 q2) / (256 * PI ^ 3 * f_mB d ^ 3 * q2).
(** the leptons in a vector, axial vector, scalar or pseudoscalar current *)
Definition lept_V (d : lfvdecay) (l1 l2 : lep3) (q2 : R) : R := 2 / (3 * q2) * (q2 - (f_ml d l1 - f_ml d l2) ^ 2) * (2 * q2 + (f_ml d l1 + f_ml d l2) ^ 2).
Definition lept_A (d : lfvdecay) (l1 l2 : lep3) (q2 : R) : R := 2 / (3 * q2) * (q2 - (f_ml d l1 + f_ml d l2) ^ 2) * (2 * q2 + (f_ml d l1 - f_ml d l2) ^ 2).
Definition lept_S (d : lfvdecay) (l1 l2 : lep3) (q2 : R) : R := 2 * (q2 - (f_ml d l1 + f_ml d l2) ^ 2).
Definition lept_P (d : lfvdecay) (l1 l2 : lep3) (q2 : R) : R := 2 * (q2 - (f_ml d l1 - f_ml d l2) ^ 2).
(** the rate for a pseudoscalar meson *)
Definition lfv_P (d : lfvdecay) (l1 l2 : lep3) (q2 : R) : R :=
  let w := f_wc d l1 l2 in let m1 := f_ml d l1 in let m2 := f_ml d l2 in
  let had := momentum (f_mB d) (f_mM d) q2 / (4 * q2) * f_ff d q2 Fplus ^ 2 in
  let had0 := ((f_mB d ^ 2 - f_mM d ^ 2) / 2) ^ 2 * f_ff d q2 Fzero ^ 2 in
  lfv_norm d l1 l2 q2 *
    (lept_V d l1 l2 q2 * had * Cmod (w9 w + w9p w)%C ^ 2 + lept_A d l1 l2 q2 * had * Cmod (w10 w + w10p w)%C ^ 2
     + lept_S d l1 l2 q2 * had0 * Cmod (wS w + wSp w + RtoC ((m1 - m2) / q2) * (w9 w + w9p w))%C ^ 2
     + lept_P d l1 l2 q2 * had0 * Cmod (wP w + wPp w + RtoC ((m1 + m2) / q2) * (w10 w + w10p w))%C ^ 2).
(** the rate for a vector meson *)
Definition lfv_V (d : lfvdecay) (l1 l2 : lep3) (q2 : R) : R :=
  let w := f_wc d l1 l2 in let m1 := f_ml d l1 in let m2 := f_ml d l2 in let mB := f_mB d in let mM := f_mM d in
  let perp := momentum mB mM q2 / (2 * (mB + mM) ^ 2) * f_ff d q2 FV ^ 2 in
  let rest := (mB + mM) ^ 2 / 2 * f_ff d q2 FA1 ^ 2 + 16 * mB ^ 2 * mM ^ 2 / q2 * f_ff d q2 FA12 ^ 2 in
  let had0 := momentum mB mM q2 / 4 * f_ff d q2 FA0 ^ 2 in
  lfv_norm d l1 l2 q2 *
    (lept_V d l1 l2 q2 * (perp * Cmod (w9 w + w9p w)%C ^ 2 + rest * Cmod (w9 w - w9p w)%C ^ 2)
     + lept_A d l1 l2 q2 * (perp * Cmod (w10 w + w10p w)%C ^ 2 + rest * Cmod (w10 w - w10p w)%C ^ 2)
     + lept_S d l1 l2 q2 * had0 * Cmod (wS w - wSp w + RtoC ((m1 - m2) / q2) * (w9 w - w9p w))%C ^ 2
     + lept_P d l1 l2 q2 * had0 * Cmod (wP w - wPp w + RtoC ((m1 + m2) / q2) * (w10 w - w10p w))%C ^ 2).
(** all coefficients of the sector are smaller than 10^-12 *)
Definition tiny (w : lfvwc) : Prop := forall x, In x [w9 w; w9p w; w10 w; w10p w; wS w; wSp w; wP w; wPp w] -> Cmod x < / 10 ^ 12.
Definition with_wc (d : lfvdecay) (w : lep3 -> lep3 -> lfvwc) : lfvdecay :=
  Lfv (f_mB d) (f_mM d) (f_mb d) (f_tau d) (f_GF d) (f_alpha d) (f_xit d) (f_meson d) (f_ml d) (f_ff d) w.
Definition with_meson (d : lfvdecay) (m : string) : lfvdecay :=
  Lfv (f_mB d) (f_mM d) (f_mb d) (f_tau d) (f_GF d) (f_alpha d) (f_xit d) m (f_ml d) (f_ff d) (f_wc d).
