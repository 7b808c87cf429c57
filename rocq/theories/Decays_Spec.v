(** * Specification for the decay observables (C124 - C133): rates from the angular distribution, time evolution of B_s mesons *)
From Coq Require Import Reals.
From Coquelicot Require Import Coquelicot.
From Verif Require Import Base Angular_Model Angular_Spec Decays_Model.
Local Open Scope R_scope.

(** the distributions in one angle: integrals over the other two *)
Definition rate_thl (g : R -> R -> R -> R) (thl : R) : R := RInt (fun phi => RInt (fun thK => g thK thl phi) 0 PI) 0 (2 * PI).
Definition rate_thV (g : R -> R -> R -> R) (thK : R) : R := RInt (fun phi => RInt (fun thl => g thK thl phi) 0 PI) 0 (2 * PI).
Definition rate_phi (g : R -> R -> R -> R) (phi : R) : R := RInt (fun thl => RInt (fun thK => g thK thl phi) 0 PI) 0 PI.
Definition rate_all (g : R -> R -> R -> R) : R := RInt (fun phi => RInt (fun thl => RInt (fun thK => g thK thl phi) 0 PI) 0 PI) 0 (2 * PI).
(** neutral light mesons contain the quarks of the final state with probability one half *)
Definition share (neutral : list string) (meson : string) : R := if in_dec string_dec meson neutral then 1 / 2 else 1.
Definition neutral_v : list string := ["rho0"; "omega"]%string.
Definition neutral_p : list string := ["pi0"]%string.

(** a decay with positive lepton masses that is kinematically possible, and continuous form factors *)
Definition endpoint (d : lnu) : R := (m_B d - m_M d) ^ 2.
Definition in_range (d : lnu) (l : lep3) (q2 : R) : Prop := m_lep d l ^ 2 <= q2 <= endpoint d.
Definition well_posed (d : lnu) : Prop :=
  (forall l, 0 < m_lep d l <= m_B d - m_M d) /\ 0 < m_B d /\ 0 <= m_M d /\ 0 <= tau_B d /\
  (forall l q2 k, in_range d l q2 -> continuous (fun q => form d q k) q2).
(** the amplitudes of the decay into a neutrino of flavour nu *)
Definition amps_lnu (d : lnu) (l nu : lep3) (q2 : R) : amps :=
  helicity_amps_v q2 (m_B d) (m_M d) (m_b d) (m_light d) (m_lep d l) 0 (form d q2)
    (get_wceff_fccc (if lep3_eqb l nu then RtoC (CVLSM d) else RtoC 0) (wCVL d l nu) (wCVR d l nu) (wCSR d l nu) (wCSL d l nu) (wCT d l nu))
    (RtoC (4 * GF d / sqrt 2) * Vij d)%C.
Definition pamps_lnu (d : lnu) (l nu : lep3) (q2 : R) : pamps :=
  helicity_amps_p q2 (m_B d) (m_M d) (m_b d) (m_light d) (m_lep d l) 0 (form d q2)
    (get_wceff_fccc (if lep3_eqb l nu then RtoC (CVLSM d) else RtoC 0) (wCVL d l nu) (wCVR d l nu) (wCSR d l nu) (wCSL d l nu) (wCT d l nu))
    (RtoC (4 * GF d / sqrt 2) * Vij d)%C.
Definition over_nu (f : lep3 -> R) : R := f Le + f Lmu + f Ltau.
(** the rate differential in q2 and the angles: squared helicity amplitudes times flux and phase space, summed over neutrino flavours *)
Definition decay_density (d : lnu) (l : lep3) (q2 thK thl phi : R) : R := over_nu (fun nu =>
  9 / (32 * PI) * (16 / 3 * normalisation q2 (m_B d) (m_M d) (m_lep d l) 0 * helicity_sum q2 (m_lep d l) 0 (amps_lnu d l nu q2) thK thl phi) * sin thK * sin thl).
Definition decay_density_p (d : lnu) (l : lep3) (q2 th : R) : R := over_nu (fun nu =>
  2 * normalisation q2 (m_B d) (m_M d) (m_lep d l) 0 * helicity_sum_p q2 (m_lep d l) 0 (pamps_lnu d l nu q2) th * sin th).

(** ** B_s mesons: the states of definite mass are p B + q Bbar (light, width Gamma (1 + y)) and p B - q Bbar (heavy, width Gamma (1 - y)).
    Time in units of 1/Gamma, x their mass difference.  Amplitudes to a final state of a meson that was a B, or a Bbar, at time zero,
    if those of B and Bbar are A and Ab *)
Definition g_plus (x y t : R) : C :=
  (RtoC (exp (- t / 2)) * (RtoC (exp (- y * t / 2)) * (cos (x * t / 2), sin (x * t / 2)) + RtoC (exp (y * t / 2)) * (cos (x * t / 2), (- sin (x * t / 2))%R)) / RtoC 2)%C.
Definition g_minus (x y t : R) : C :=
  (RtoC (exp (- t / 2)) * (RtoC (exp (- y * t / 2)) * (cos (x * t / 2), sin (x * t / 2)) - RtoC (exp (y * t / 2)) * (cos (x * t / 2), (- sin (x * t / 2))%R)) / RtoC 2)%C.
Definition from_B (qp : C) (x y : R) (A Ab : amps) (t : R) : amps := amps_add (amps_scale (g_plus x y t) A) (qp * g_minus x y t)%C Ab.
Definition from_Bbar (qp : C) (x y : R) (A Ab : amps) (t : R) : amps := amps_add (amps_scale (g_plus x y t) Ab) (g_minus x y t / qp)%C A.

(** the same decay with only the neutrino of the lepton's flavour *)
Definition diagonal (d : lnu) : lnu :=
  let diag (w : lep3 -> lep3 -> C) l nu := if lep3_eqb l nu then w l nu else RtoC 0 in
  Lnu (m_lep d) (m_B d) (m_M d) (tau_B d) (m_b d) (m_light d) (GF d) (Vij d) (CVLSM d)
    (diag (wCVL d)) (diag (wCVR d)) (diag (wCSR d)) (diag (wCSL d)) (diag (wCT d)) (form d) (meson d).
(** two lepton flavours with equal masses and couplings: exchanging them changes nothing *)
Definition swap (l1 l2 nu : lep3) : lep3 := if lep3_eqb nu l1 then l2 else if lep3_eqb nu l2 then l1 else nu.
Definition universal (d : lnu) (l1 l2 : lep3) : Prop :=
  m_lep d l1 = m_lep d l2 /\ forall nu, wCVL d l1 (swap l1 l2 nu) = wCVL d l2 nu /\ wCVR d l1 (swap l1 l2 nu) = wCVR d l2 nu /\
    wCSR d l1 (swap l1 l2 nu) = wCSR d l2 nu /\ wCSL d l1 (swap l1 l2 nu) = wCSL d l2 nu /\ wCT d l1 (swap l1 l2 nu) = wCT d l2 nu.
(** the average over e and mu if lep = 'l' *)
Definition mean (lep : lepton) (g : lep3 -> R) : R := match lep with Lep l => g l | Ll => (g Le + g Lmu) / 2 end.
