(** * Specification for leptonic decays (C142-C146) *)
From Coq Require Import Reals List.
From Coquelicot Require Import Coquelicot.
From Verif Require Import Base Decays_Model Decays_Spec Leptonic_Model.
Local Open Scope R_scope.

(** ** two-body decays: width = phase space times squared matrix element (summed over spins, averaged over the initial spin) *)
Definition phase_space (M m1 m2 : R) : R := sqrt ((M ^ 2 - (m1 + m2) ^ 2) * (M ^ 2 - (m1 - m2) ^ 2)) / (16 * PI * M ^ 3).
(** scalar product of the two momenta in the decay of a particle of mass M *)
Definition dot (M m1 m2 : R) : R := (M ^ 2 - m1 ^ 2 - m2 ^ 2) / 2.
(** spin sums of the lepton lines  ubar gamma5 v  and  ubar v *)
Definition pseudo_line (M m1 m2 : R) : R := 4 * (dot M m1 m2 + m1 * m2).
Definition scalar_line (M m1 m2 : R) : R := 4 * (dot M m1 m2 - m1 * m2).

(** ** B -> l1 l2 *)
(** coefficients in force: the SM contributes only to lepton-flavour conserving decays *)
Definition coef (d : bqll) (op : llop) (l1 l2 : lep3) : C :=
  (ll_np d op l1 l2 + (if lep3_eqb l1 l2 then ll_sm d op else RtoC 0))%C.
(** the pseudoscalar quark current between B and the vacuum, relative to the divergence of the axial current *)
Definition chiral (d : bqll) : R := ll_mB d ^ 2 * ll_mb d / (ll_mb d + ll_mspec d).
Definition coupling (d : bqll) : R := 4 * ll_GF d / sqrt 2 * (ll_alpha d / (4 * PI)) * Cmod (ll_xi d).
(** coefficient of the two lepton lines: f_B p^mu contracted with the vector and axial lepton currents, plus the densities *)
Definition line5 (d : bqll) (l1 l2 : lep3) : C :=
  (RtoC (ll_m d l1 + ll_m d l2) * (coef d O10 l1 l2 - coef d O10p l1 l2) + RtoC (chiral d) * (coef d OP l1 l2 - coef d OPp l1 l2))%C.
Definition line1 (d : bqll) (l1 l2 : lep3) : C :=
  (RtoC (ll_m d l2 - ll_m d l1) * (coef d O9 l1 l2 - coef d O9p l1 l2) + RtoC (chiral d) * (coef d OS l1 l2 - coef d OSp l1 l2))%C.
Definition squared (d : bqll) (l1 l2 : lep3) : R :=
  (coupling d * ll_f d / 2) ^ 2 * (pseudo_line (ll_mB d) (ll_m d l1) (ll_m d l2) * Cmod (line5 d l1 l2) ^ 2
    + scalar_line (ll_mB d) (ll_m d l1) (ll_m d l2) * Cmod (line1 d l1 l2) ^ 2).
Definition allowed2 (d : bqll) (l1 l2 : lep3) : Prop :=
  0 < ll_mB d /\ 0 <= ll_m d l1 /\ 0 <= ll_m d l2 /\ ll_m d l1 + ll_m d l2 < ll_mB d /\ 0 < ll_mb d /\ 0 <= ll_mspec d /\ 0 < ll_tau d.

(** ** oscillations.  Two lepton helicities (+1, -1); the antimeson decays with amplitude (h P + S)/sqrt 2, the meson with the
    CP-conjugate amplitude, whose pseudoscalar part has the opposite sign; u is the phase q/p (of modulus one) relative to the
    decay amplitudes, x the mass difference, y half the width difference, in units of the width; t in units of the lifetime *)
Section Oscillation.
  Variables (u : C) (x y : R) (P S : C).
  Definition Abar (h : R) : C := ((RtoC h * P + S) / RtoC (sqrt 2))%C.
  Definition Amp (h : R) : C := (u * (- RtoC h * Cconj P + Cconj S) / RtoC (sqrt 2))%C.
  Definition rate_B (t : R) : R :=
    Cmod (g_plus x y t * Amp 1 + u * g_minus x y t * Abar 1)%C ^ 2 + Cmod (g_plus x y t * Amp (-1) + u * g_minus x y t * Abar (-1))%C ^ 2.
  Definition rate_Bbar (t : R) : R :=
    Cmod (g_plus x y t * Abar 1 + g_minus x y t / u * Amp 1)%C ^ 2 + Cmod (g_plus x y t * Abar (-1) + g_minus x y t / u * Amp (-1))%C ^ 2.
  (** equal numbers of mesons and antimesons at time 0, normalised to the rate at time 0 being |P|^2 + |S|^2 *)
  Definition untagged (t : R) : R := (rate_B t + rate_Bbar t) / 2.
End Oscillation.
(** all decays; the time-weighted sum of all decays *)
Definition all_decays (u : C) (x y : R) (P S : C) (L : R) : Prop := is_lim (fun T => RInt (untagged u x y P S) 0 T) p_infty L.
Definition all_times (u : C) (x y : R) (P S : C) (L : R) : Prop := is_lim (fun T => RInt (fun t => t * untagged u x y P S t) 0 T) p_infty L.
(** the two amplitudes of a flavour-conserving decay, and half the width difference *)
Definition ampP (d : bqll) (l : lep3) : C := (line5 d l l / RtoC (ll_mB d))%C.
Definition ampS (d : bqll) (l : lep3) : C := (RtoC (sqrt (1 - 4 * ll_m d l ^ 2 / ll_mB d ^ 2)) * line1 d l l / RtoC (ll_mB d))%C.
Definition ydiff (d : bqll) : R := ll_dGoG d / 2.
Definition scale2 (d : bqll) (l : lep3) : R :=
  ll_tau d * phase_space (ll_mB d) (ll_m d l) (ll_m d l) * ((coupling d * ll_f d) ^ 2 * ll_mB d ^ 4 / 2).

(** ** P -> l nu and tau -> P nu *)
(** the SM contributes if the neutrino has the flavour of the lepton *)
Definition fc (d : plnu) (sm : R) (op : fcop) (l nu : lep3) : C :=
  (pl_np d op l nu + (match op with FVL => if lep3_eqb l nu then RtoC sm else RtoC 0 | _ => RtoC 0 end))%C.
(** matrix element of the weak current times the lepton momentum, plus that of the density, for quark masses q1, q2 *)
Definition current (d : plnu) (sm ml q1 q2 : R) (l nu : lep3) : C :=
  (RtoC ml * (fc d sm FVL l nu - fc d sm FVR l nu) + RtoC (pl_mP d ^ 2 / (q1 + q2)) * (fc d sm FSR l nu - fc d sm FSL l nu))%C.
(** spin sum for a left-handed neutrino: 2 p_l p_nu times 1 *)
Definition squared_lnu (d : plnu) (sm ml q1 q2 : R) (l nu : lep3) : R :=
  (4 * pl_GF d / sqrt 2 * Cmod (pl_V d) * (pl_f d / 2)) ^ 2 * (2 * dot (pl_mP d) ml 0) * Cmod (current d sm ml q1 q2 l nu) ^ 2.
(** quarks of the mesons *)
Definition quarks (d : plnu) (P : charged) : R * R :=
  match P with
  | Bplus => (pl_mb d, 0) | Bc => (pl_mb d, pl_mc d) | Dplus => (pl_mc d, pl_md d) | Ds => (pl_mc d, pl_ms d)
  | Kplus => (pl_ms d, pl_mu d) | piplus => (pl_md d, pl_mu d) end.
(** SM coefficient: for kaons and pions relative to the Fermi constant without new physics in muon decay *)
Definition sm_of (d : plnu) (P : charged) : R :=
  match P with Kplus | piplus => pl_CVLSM d * (pl_GFeff d / pl_GF d) | _ => pl_CVLSM d end.
Definition radiative (d : plnu) (P : charged) (l : lep3) : R := match P with Kplus | piplus => 1 + pl_delta d l | _ => 1 end.
Definition width_lnu (d : plnu) (P : charged) (l nu : lep3) : R :=
  phase_space (pl_mP d) (pl_m d l) 0 * squared_lnu d (sm_of d P) (pl_m d l) (fst (quarks d P)) (snd (quarks d P)) l nu * radiative d P l.
Definition lnu_ok (d : plnu) : Prop :=
  (forall l, 0 < pl_m d l) /\ 0 < pl_mP d /\ 0 < pl_tau d /\ 0 < pl_tautau d /\ 0 < pl_f d /\ 0 < pl_GF d /\
  0 < pl_mb d /\ 0 < pl_mc d /\ 0 < pl_ms d /\ 0 < pl_md d /\ 0 < pl_mu d.

(** tau -> P nu: averaged over the two spins of the tau *)
Definition width_taup (d : plnu) (P : charged) (nu : lep3) : R :=
  phase_space (pl_m d Ltau) (pl_mP d) 0
  * (1 / 2 * (4 * pl_GF d / sqrt 2 * Cmod (pl_V d) * (pl_f d / 2)) ^ 2 * (pl_m d Ltau ^ 2 - pl_mP d ^ 2)
     * Cmod (current d (pl_CVLSM d * (pl_GFeff d / pl_GF d)) (pl_m d Ltau) (fst (quarks d P)) (snd (quarks d P)) Ltau nu) ^ 2).

(** ** fermion -> scalar or vector + fermion: squared matrix elements from helicity amplitudes.
    p = +1, -1: parity; for the vector [s] and [t] are the sums of the couplings to vector and tensor currents *)
Definition parity_sum (p : R) (a b : C) : C := ((a + RtoC p * b) / RtoC (sqrt 2))%C.
Definition squared_s (M ms mf : R) (gL gR : C) : R :=
  ((M + mf) ^ 2 - ms ^ 2) / 2 * Cmod (parity_sum 1 gL gR) ^ 2 + ((M - mf) ^ 2 - ms ^ 2) / 2 * Cmod (parity_sum (-1) gL gR) ^ 2.
(** [s]: coupling to the current, [t]: to the field strength; longitudinal and two transverse polarisations *)
Definition squared_v1 (sigma mv : R) (s t : C) : R :=
  Cmod (RtoC (sigma / mv) * s + RtoC mv * t)%C ^ 2 + 2 * Cmod (s + RtoC sigma * t)%C ^ 2.
Definition squared_v (M mv mf : R) (gL gR gTL gtTL gTR gtTR : C) : R :=
  let c := (gTR + gtTR)%C in let e := (gTL - gtTL)%C in
  ((M - mf) ^ 2 - mv ^ 2) / 2 * squared_v1 (M + mf) mv (parity_sum 1 gL gR) (parity_sum 1 c e)
  + ((M + mf) ^ 2 - mv ^ 2) / 2 * squared_v1 (M - mf) mv (parity_sum (-1) gL gR) (parity_sum (-1) c e).

(** ** tau -> l nu nu *)
(** every coefficient is stored under one of its two names: that of the operator or that of its hermitian conjugate *)
Definition named (d : taulnunu) (lep nu1 nu2 : lep3) : Prop :=
  (exists a b, tl_LL d nu2 nu1 Ltau lep = Some a /\ tl_LR d nu2 nu1 Ltau lep = Some b) \/
  (tl_LL d nu2 nu1 Ltau lep = None /\ tl_LR d nu2 nu1 Ltau lep = None /\ exists a b, tl_LL d nu1 nu2 lep Ltau = Some a /\ tl_LR d nu1 nu2 lep Ltau = Some b).
Definition value_of (t : lep3 -> lep3 -> lep3 -> lep3 -> option C) (lep nu1 nu2 : lep3) : C :=
  match t nu2 nu1 Ltau lep with Some c => c | None => match t nu1 nu2 lep Ltau with Some c => Cconj c | None => RtoC 0 end end.
Definition tl_ok (d : taulnunu) (lep : lep3) : Prop := 0 < tl_m d lep < tl_m d Ltau /\ 0 < tl_tau d /\ 0 <= tl_alpha d <= 1 / 10.
(** the SM rate G_F^2 m^5 / (192 pi^3) F(m_l^2/m^2) with its electromagnetic correction *)
Definition sm_rate (d : taulnunu) (lep : lep3) : R :=
  tl_tau d * (tl_GFeff d ^ 2 * tl_m d Ltau ^ 5 / (192 * PI ^ 3))
  * (let x := (tl_m d lep / tl_m d Ltau) ^ 2 in 1 - 8 * x + 8 * x ^ 3 - x ^ 4 - 12 * x ^ 2 * ln x)
  * (1 + tl_alpha d / (2 * PI) * (25 / 4 - PI ^ 2)).
