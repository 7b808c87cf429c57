(** * Theorems: B -> V gamma (C184) *)
From Coq Require Import Reals Lra Psatz.
From Coquelicot Require Import Coquelicot.
From Verif Require Import Base Basics_Model Basics_Proofs Rare_Model.
Local Open Scope R_scope.

(** specification: the total amplitudes for photons with left- and right-handed polarisation, in the decay of the meson and, with the
    polarisations exchanged, in the conjugate decay *)
Definition left_amp (d : vgamma) (cp : bool) : C :=
  (g_N d cp * (g_C7 d cp + g_dC7 d cp) * RtoC (g_T1 d cp) - g_Nh d * (fst (g_ss d cp) + fst (g_sub d cp)))%C.
Definition right_amp (d : vgamma) (cp : bool) : C :=
  (g_N d cp * g_C7p d cp * RtoC (g_T1 d cp) + g_Nh d * (snd (g_ss d cp) + snd (g_sub d cp)))%C.
Definition width (d : vgamma) (cp : bool) : R := Cmod (left_amp d cp) ^ 2 + Cmod (right_amp d cp) ^ 2.
(** twice the interference of mixing and decay, over the sum of the widths *)
Definition interference (d : vgamma) : C :=
  (g_qp d * (left_amp d false * Cconj (right_amp d true) + right_amp d false * Cconj (left_amp d true)) * RtoC (- 2 / (width d false + width d true)))%C.

Lemma amps_are (d : vgamma) : aL (amps_vg d) = left_amp d false /\ aR (amps_vg d) = right_amp d false /\ aL (amps_vg_bar d) = right_amp d true /\ aR (amps_vg_bar d) = left_amp d true.
Proof. unfold amps_vg, amps_vg_bar, left_amp, right_amp, lr_add, amps_ff, amps_hel. cbn [aL aR]. repeat split; ring. Qed.
Lemma width_ge (d : vgamma) (cp : bool) : 0 <= width d cp.
Proof. unfold width. apply Rplus_le_le_0_compat; apply pow2_ge_0. Qed.
Lemma gammas (d : vgamma) : Gamma_vg (amps_vg d) = width d false /\ Gamma_vg (amps_vg_bar d) = width d true.
Proof. unfold Gamma_vg, width. destruct (amps_are d) as (-> & -> & -> & ->). split; [reflexivity | ring]. Qed.

Theorem C184_observables (d : vgamma) : width d false + width d true <> 0 ->
  vg_BR d = g_tau d * ((width d false + width d true) / 2) /\
  vg_ACP d = (width d false - width d true) / (width d false + width d true) /\
  vg_S d = Im (interference d) /\ vg_ADeltaGamma d = Re (interference d) /\
  vg_BR_timeint d = vg_BR d * (1 - Re (interference d) * (g_dGoG d / 2)) / (1 - (g_dGoG d / 2) ^ 2).
Proof.
  intros W. destruct (gammas d) as (G1 & G2).
  assert (S : S_A_complex d = interference d).
  { unfold S_A_complex, interference, Gamma_CPaverage. cbv zeta. rewrite G1, G2. destruct (amps_are d) as (-> & -> & -> & ->).
    unfold Cdiv. rewrite <- RtoC_inv by lra. replace (- 2 / (width d false + width d true)) with (- / ((width d false + width d true) / 2)) by (field; lra). rewrite RtoC_opp. ring. }
  refine (conj _ (conj _ (conj _ (conj _ _)))).
  - unfold vg_BR, Gamma_CPaverage. now rewrite G1, G2.
  - unfold vg_ACP. now rewrite G1, G2.
  - unfold vg_S. rewrite S. reflexivity.
  - unfold vg_ADeltaGamma. rewrite S. reflexivity.
  - unfold vg_BR_timeint, vg_ADeltaGamma. rewrite S. cbv zeta. unfold Re, Rdiv. ring.
Qed.
(** Cauchy-Schwarz: S^2 + A_DeltaGamma^2 is at most |q/p|^2 (1 - A_CP^2) *)
Lemma cauchy (a b c e : C) : Cmod (a * Cconj c + b * Cconj e)%C ^ 2 <= (Cmod a ^ 2 + Cmod b ^ 2) * (Cmod c ^ 2 + Cmod e ^ 2).
Proof.
  rewrite !cmod_sq. destruct a as [a1 a2], b as [b1 b2], c as [c1 c2], e as [e1 e2]. cbn [fst snd Cplus Cmult Cconj].
  (* the difference is |a e^ - b c^|^2-like: |a e - b c|^2 *)
  assert (D : (a1 ^ 2 + a2 ^ 2 + (b1 ^ 2 + b2 ^ 2)) * (c1 ^ 2 + c2 ^ 2 + (e1 ^ 2 + e2 ^ 2)) - ((a1 * c1 - a2 * - c2 + (b1 * e1 - b2 * - e2)) ^ 2 + (a1 * - c2 + a2 * c1 + (b1 * - e2 + b2 * e1)) ^ 2)
    = (a1 * e1 - a2 * e2 - (b1 * c1 - b2 * c2)) ^ 2 + (a1 * e2 + a2 * e1 - (b1 * c2 + b2 * c1)) ^ 2) by ring.
  pose proof (pow2_ge_0 (a1 * e1 - a2 * e2 - (b1 * c1 - b2 * c2))). pose proof (pow2_ge_0 (a1 * e2 + a2 * e1 - (b1 * c2 + b2 * c1))). lra.
Qed.
Theorem C184_bounds (d : vgamma) : 0 <= g_tau d -> 0 < width d false + width d true ->
  0 <= vg_BR d /\ -1 <= vg_ACP d <= 1 /\ vg_S d ^ 2 + vg_ADeltaGamma d ^ 2 <= Cmod (g_qp d) ^ 2 * (1 - vg_ACP d ^ 2).
Proof.
  intros T W. destruct (C184_observables d ltac:(lra)) as (B & A & S & D & _). rewrite B, A, S, D. pose proof (width_ge d false) as w. pose proof (width_ge d true) as w'.
  refine (conj _ (conj (conj _ _) _)).
  - apply Rmult_le_pos; lra.
  - apply (Rmult_le_reg_r (width d false + width d true)); [exact W |]. replace ((width d false - width d true) / (width d false + width d true) * (width d false + width d true)) with (width d false - width d true) by (field; lra). lra.
  - apply (Rmult_le_reg_r (width d false + width d true)); [exact W |]. replace ((width d false - width d true) / (width d false + width d true) * (width d false + width d true)) with (width d false - width d true) by (field; lra). lra.
  - replace (Im (interference d) ^ 2 + Re (interference d) ^ 2) with (Cmod (interference d) ^ 2) by (rewrite cmod_sq; unfold Re, Im; ring).
    unfold interference. rewrite !Cmod_mult, Cmod_R, !Rpow_mult_distr.
    assert (E : Rabs (- 2 / (width d false + width d true)) ^ 2 = (2 / (width d false + width d true)) ^ 2).
    { rewrite <- !Rsqr_pow2, <- Rsqr_abs, !Rsqr_pow2. field. lra. }
    rewrite E, Rmult_assoc. apply Rmult_le_compat_l; [apply pow2_ge_0 |].
    pose proof (cauchy (left_amp d false) (right_amp d false) (right_amp d true) (left_amp d true)) as L.
    replace (1 - ((width d false - width d true) / (width d false + width d true)) ^ 2) with (width d false * width d true * (2 / (width d false + width d true)) ^ 2) by (field; lra).
    apply Rmult_le_compat_r; [apply pow2_ge_0 |]. unfold width. rewrite (Rplus_comm (Cmod (left_amp d true) ^ 2)). exact L.
Qed.
(** null tests: without right-handed photons there is no interference; without CP violation in the decay there is no direct asymmetry *)
Theorem C184_null_tests (d : vgamma) : 0 < width d false + width d true ->
  (right_amp d false = RtoC 0 -> right_amp d true = RtoC 0 -> vg_S d = 0 /\ vg_ADeltaGamma d = 0 /\ vg_BR_timeint d = vg_BR d / (1 - (g_dGoG d / 2) ^ 2)) /\
  (left_amp d true = left_amp d false -> right_amp d true = right_amp d false -> vg_ACP d = 0) /\
  (g_dGoG d = 0 -> vg_BR_timeint d = vg_BR d).
Proof.
  intros W. destruct (C184_observables d ltac:(lra)) as (B & A & S & D & T). refine (conj _ (conj _ _)).
  - intros r r'. assert (Z : interference d = RtoC 0) by (unfold interference; rewrite r, r'; apply injective_projections; cbn; ring).
    rewrite T, S, D, Z. cbn [Re Im fst snd RtoC]. repeat split; try reflexivity. unfold Rdiv. ring.
  - intros l r. rewrite A. unfold width. rewrite l, r. unfold Rdiv. ring.
  - intros z. rewrite T, z. unfold Rdiv. rewrite Rmult_0_l. field.
Qed.
(** the time-integrated branching ratio differs from the one at t = 0 by at most a factor 1 -+ |y| if |q/p| <= 1 *)
Theorem C184_time_integrated (d : vgamma) : 0 <= g_tau d -> 0 < width d false + width d true -> Cmod (g_qp d) <= 1 -> let y := g_dGoG d / 2 in Rabs y < 1 ->
  vg_BR d / (1 + Rabs y) <= vg_BR_timeint d <= vg_BR d / (1 - Rabs y).
Proof.
  intros T W Q y Y. destruct (C184_observables d ltac:(lra)) as (_ & _ & _ & D & E). destruct (C184_bounds d T W) as (B & A & U). rewrite E, <- D. fold y.
  assert (L : vg_ADeltaGamma d ^ 2 <= 1).
  { pose proof (pow2_ge_0 (vg_S d)). pose proof (pow2_ge_0 (vg_ACP d)). pose proof (Cmod_ge_0 (g_qp d)).
    assert (q1 : Cmod (g_qp d) ^ 2 <= 1) by (rewrite <- (pow1 2); apply pow_incr; lra). pose proof (pow2_ge_0 (Cmod (g_qp d))).
    assert (p1 : vg_ACP d ^ 2 <= 1) by nra.
    assert (Cmod (g_qp d) ^ 2 * (1 - vg_ACP d ^ 2) <= 1 * 1) by (apply Rmult_le_compat; lra). lra. }
  assert (L1 : Rabs (vg_ADeltaGamma d) <= 1). { apply Rsqr_incr_0_var; [| lra]. rewrite <- Rsqr_abs, !Rsqr_pow2. lra. }
  assert (P : Rabs (vg_ADeltaGamma d * y) <= Rabs y). { rewrite Rabs_mult. pose proof (Rabs_pos y). rewrite <- (Rmult_1_l (Rabs y)) at 2. apply Rmult_le_compat_r; lra. }
  assert (Y2 : y ^ 2 = Rabs y ^ 2) by (rewrite <- !Rsqr_pow2; apply Rsqr_abs). rewrite Y2. pose proof (Rabs_pos y) as Y0. set (r := Rabs y) in *. clearbody r.
  assert (P1 := Rabs_def2). assert (P2 : - r <= vg_ADeltaGamma d * y <= r) by (split; [apply Rabs_le_between in P | apply Rabs_le_between in P]; lra).
  assert (F : 1 - r ^ 2 = (1 - r) * (1 + r)) by ring. assert (F0 : 0 < (1 - r) * (1 + r)) by (apply Rmult_lt_0_compat; lra).
  set (x := vg_ADeltaGamma d * y) in *. clearbody x. rewrite F. split.
  - replace (vg_BR d / (1 + r)) with (vg_BR d * (1 - r) / ((1 - r) * (1 + r))) by (field; lra). apply Rmult_le_compat_r; [apply Rlt_le, Rinv_0_lt_compat, F0 |]. apply Rmult_le_compat_l; lra.
  - replace (vg_BR d / (1 - r)) with (vg_BR d * (1 + r) / ((1 - r) * (1 + r))) by (field; lra). apply Rmult_le_compat_r; [apply Rlt_le, Rinv_0_lt_compat, F0 |]. apply Rmult_le_compat_l; lra.
Qed.

Print Assumptions C184_observables.
Print Assumptions C184_bounds.
Print Assumptions C184_null_tests.
Print Assumptions C184_time_integrated.
(** a decay with photons of both polarisations and with right-handed photons only in the conjugate decay suppressed *)
Example ex_vg : let d := VGamma (fun _ => RtoC 1) (fun _ => RtoC (- 3 / 10)) (fun b => if b then RtoC 0 else RtoC (1 / 100)) (fun _ => RtoC 0) (fun _ => 3 / 10) (RtoC 1) (fun _ => (RtoC 0, RtoC 0)) (fun _ => (RtoC 0, RtoC 0)) 1 (12 / 100) (RtoC 1) in
  0 <= g_tau d /\ 0 < width d false + width d true /\ Cmod (g_qp d) <= 1 /\ Rabs (g_dGoG d / 2) < 1.
Proof.
  cbv zeta. refine (conj _ (conj _ (conj _ _))).
  - cbn. lra.
  - unfold width. rewrite !cmod_sq. unfold left_amp, right_amp. cbn. nra.
  - cbn [g_qp]. rewrite Cmod_R, Rabs_pos_eq; lra.
  - cbn [g_dGoG]. rewrite Rabs_pos_eq; lra.
Qed.
