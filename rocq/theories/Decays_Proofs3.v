(** * Proofs for the decay observables: distributions in one angle *)
From Coq Require Import Reals Lra.
From Coquelicot Require Import Coquelicot.
From Verif Require Import Base Basics_Model Basics_Proofs Angular_Model Angular_Spec Angular_Proofs Angular_Proofs2 Angular_Proofs3 Angular_Proofs4 Angular_Proofs5 Angular_Proofs6 Angular_Proofs7 Angular_Proofs8 Angular_Proofs9 Decays_Model Decays_Spec Decays_Proofs Decays_Proofs2.
Local Open Scope R_scope.

Ltac ring_dist := unfold sum_ang; cbn [fold_left fst snd dG_dq2_dcosthl dG_dq2_dcosthV dG_dq2_dphi _cos_angle_diff _cos_angle_int _angle_diff _angle_int].
Lemma thl_is (J : jkey -> R) (thl : R) : rate_thl (density J) thl = sum_ang (dG_dq2_dcosthl J) (_cos_angle_diff (cos thl)) * sin thl.
Proof.
  unfold rate_thl. pose proof PI_neq0 as PN.
  rewrite (ext_R _ (fun phi => 3 / (8 * PI) * (J J1s + J J2s * cos (2 * thl) + J J6s * cos thl + / 2 * (J J1c + J J2c * cos (2 * thl) + J J6c * cos thl)) * sin thl
    + 3 / (8 * PI) * J J3 * sin thl ^ 2 * sin thl * cos (2 * phi) + 3 / (8 * PI) * J J9 * sin thl ^ 2 * sin thl * sin (2 * phi))).
  - rewrite int_phi. ring_dist. rewrite cos_2a_cos. toR. field. exact PN.
  - intros x. rewrite density_K. toR. field. exact PN.
Qed.
Lemma thV_is (J : jkey -> R) (thK : R) : rate_thV (density J) thK = sum_ang (dG_dq2_dcosthV J) (_cos_angle_diff (cos thK)) * sin thK.
Proof.
  unfold rate_thV. pose proof PI_neq0 as PN.
  rewrite (ext_R _ (fun phi => 9 / (32 * PI) * sin thK * ((J J1s * sin thK ^ 2 + J J1c * cos thK ^ 2) * 2 - (J J2s * sin thK ^ 2 + J J2c * cos thK ^ 2) * (2 / 3)) + 9 / (32 * PI) * sin thK * (J J3 * sin thK ^ 2 * (4 / 3)) * cos (2 * phi) + 9 / (32 * PI) * sin thK * (J J9 * sin thK ^ 2 * (4 / 3)) * sin (2 * phi)
    + 9 / (32 * PI) * sin thK * (PI / 2) * sin (2 * thK) * (J J5 * cos phi + J J7 * sin phi))).
  - rewrite RInt_der with (F := fun phi => 9 / (32 * PI) * sin thK * ((J J1s * sin thK ^ 2 + J J1c * cos thK ^ 2) * 2 - (J J2s * sin thK ^ 2 + J J2c * cos thK ^ 2) * (2 / 3)) * phi
      + 9 / (32 * PI) * sin thK * (J J3 * sin thK ^ 2 * (4 / 3)) * (sin (2 * phi) / 2) - 9 / (32 * PI) * sin thK * (J J9 * sin thK ^ 2 * (4 / 3)) * (cos (2 * phi) / 2)
      + 9 / (32 * PI) * sin thK * (PI / 2) * sin (2 * thK) * (J J5 * sin phi - J J7 * cos phi)).
    + assert (F1 : sin (2 * (2 * PI)) = 0) by (rewrite sin_2a, sin_2PI; ring). assert (F2 : cos (2 * (2 * PI)) = 1) by (rewrite cos_2a, sin_2PI, cos_2PI; ring).
      rewrite F1, F2, !Rmult_0_r, sin_0, cos_0, sin_2PI, cos_2PI. ring_dist. pose proof (sin_sq thK) as E. replace (sin thK ^ 2) with (1 - cos thK ^ 2) by (simpl; lra). toR. field. exact PN.
    + intros x. auto_derive; [easy | toR; field; exact PN].
    + intros x. apply (ex_derive_continuous (V := R_NormedModule)). auto_derive. easy.
  - intros phi. rewrite RInt_der with (F := fun x => 9 / (32 * PI) * sin thK * (- (J J1s * sin thK ^ 2 + J J1c * cos thK ^ 2) * cos x + (J J2s * sin thK ^ 2 + J J2c * cos thK ^ 2) * (cos x - 2 / 3 * cos x ^ 3)
       + (J J3 * sin thK ^ 2 * cos (2 * phi) + J J9 * sin thK ^ 2 * sin (2 * phi)) * (cos x ^ 3 / 3 - cos x) + (J J4 * sin (2 * thK) * cos phi + J J8 * sin (2 * thK) * sin phi) * (2 / 3 * sin x ^ 3)
       + (J J5 * sin (2 * thK) * cos phi + J J7 * sin (2 * thK) * sin phi) * (x / 2 - sin x * cos x / 2) - (J J6s * sin thK ^ 2 + J J6c * cos thK ^ 2) * (cos x ^ 2 / 2))).
    + rewrite cos_PI, sin_PI, cos_0, sin_0. toR. field. exact PN.
    + intros x. evar (D : R). replace (density J thK x phi) with D; unfold D; [auto_derive; [easy | reflexivity] |].
      pose proof (sin_sq x) as E. simpl pred. unfold density, distribution. rewrite (cos_2a_cos x), (sin_2a x). toR; field [E]. exact PN.
    + intros x. apply (ex_derive_continuous (V := R_NormedModule)). unfold density, distribution. auto_derive. easy.
Qed.
Lemma phi_is (J : jkey -> R) (phi : R) : rate_phi (density J) phi = sum_ang (dG_dq2_dphi J) (_angle_diff phi).
Proof. unfold rate_phi. rewrite density_l, cos_0, cos_PI. ring_dist. toR. field. apply PI_neq0. Qed.
Lemma all_is (J : jkey -> R) : rate_all (density J) = vdGdq2 J.
Proof. unfold rate_all. rewrite rate_is_integral. reflexivity. Qed.
(** bins *)
Lemma RI_der (F f : R -> R) (a b : R) : (forall x, is_derive F x (f x)) -> (forall x, continuous f x) -> RInt f a b = F b - F a.
Proof. apply RInt_der. Qed.
Ltac der := intros x; auto_derive; [easy | toR; simpl pred; try field; try apply PI_neq0].
Ltac con := intros x; apply (ex_derive_continuous (V := R_NormedModule)); auto_derive; easy.
Lemma thl_bin (J : jkey -> R) (a b : R) : sum_ang (dG_dq2_dcosthl J) (fun i => _cos_angle_int b i - _cos_angle_int a i) = RInt (fun c => sum_ang (dG_dq2_dcosthl J) (_cos_angle_diff c)) a b.
Proof.
  rewrite RI_der with (F := fun c => sum_ang (dG_dq2_dcosthl J) (_cos_angle_int c)); ring_dist; [toR; ring | der | con].
Qed.
Lemma thV_bin (J : jkey -> R) (a b : R) : sum_ang (dG_dq2_dcosthV J) (fun i => _cos_angle_int b i - _cos_angle_int a i) = RInt (fun c => sum_ang (dG_dq2_dcosthV J) (_cos_angle_diff c)) a b.
Proof.
  rewrite RI_der with (F := fun c => sum_ang (dG_dq2_dcosthV J) (_cos_angle_int c)); ring_dist; [toR; ring | der | con].
Qed.
Lemma phi_bin (J : jkey -> R) (a b : R) : sum_ang (dG_dq2_dphi J) (fun i => _angle_int b i - _angle_int a i) = RInt (fun c => sum_ang (dG_dq2_dphi J) (_angle_diff c)) a b.
Proof.
  rewrite RI_der with (F := fun c => sum_ang (dG_dq2_dphi J) (_angle_int c)); ring_dist; [toR; ring | der | con].
Qed.
Lemma thl_full (J : jkey -> R) : sum_ang (dG_dq2_dcosthl J) (fun i => _cos_angle_int 1 i - _cos_angle_int (-1) i) = vdGdq2 J.
Proof. ring_dist. unfold vdGdq2. field. Qed.
Lemma thV_full (J : jkey -> R) : sum_ang (dG_dq2_dcosthV J) (fun i => _cos_angle_int 1 i - _cos_angle_int (-1) i) = vdGdq2 J.
Proof. ring_dist. unfold vdGdq2. field. Qed.
Lemma phi_full (J : jkey -> R) (x : R) : sum_ang (dG_dq2_dphi J) (fun i => _angle_int (x + 2 * PI) i - _angle_int x i) = vdGdq2 J.
Proof.
  ring_dist. unfold vdGdq2. replace (2 * (x + 2 * PI)) with (2 * x + 2 * INR 2 * PI) by (simpl; ring). rewrite sin_period, cos_period. field. apply PI_neq0.
Qed.
(** positivity by quadrature *)
Definition dist_pos (J : jkey -> R) : Prop := forall thK thl phi, 0 <= distribution J thK thl phi.
Ltac nodes := unfold distribution; rewrite ?Rmult_0_r; replace (2 * (PI / 2)) with PI by field; rewrite ?cos_2PI, ?sin_2PI, ?cos_0, ?sin_0, ?cos_PI, ?sin_PI, ?cos_PI2, ?sin_PI2.
Lemma thl_pos (J : jkey -> R) (c : R) : dist_pos J -> -1 <= c <= 1 -> 0 <= sum_ang (dG_dq2_dcosthl J) (_cos_angle_diff c).
Proof.
  intros P c1. pose proof (P 0 (acos c) 0) as a. pose proof (P (PI / 2) (acos c) 0) as b. pose proof (P (PI / 2) (acos c) (PI / 2)) as e.
  revert a b e. nodes. rewrite !cos_2a_cos, !cos_acos by exact c1. intros a b e. ring_dist. simpl in *. lra.
Qed.
Lemma thV_pos (J : jkey -> R) (c : R) : dist_pos J -> -1 <= c <= 1 -> 0 <= sum_ang (dG_dq2_dcosthV J) (_cos_angle_diff c).
Proof.
  intros P c1. set (th := acos c).
  assert (Q : forall thl, 0 <= J J1s * sin th ^ 2 + J J1c * cos th ^ 2 + (J J2s * sin th ^ 2 + J J2c * cos th ^ 2) * cos (2 * thl) + (J J6s * sin th ^ 2 + J J6c * cos th ^ 2) * cos thl).
  { intros thl. pose proof (P th thl 0) as a. pose proof (P th thl (PI / 2)) as b. pose proof (P th thl PI) as e. pose proof (P th thl (3 * (PI / 2))) as f. revert a b e f. unfold distribution.
    rewrite Rmult_0_r. replace (2 * (PI / 2)) with PI by field. replace (2 * (3 * (PI / 2))) with (PI + 2 * PI) by field.
    replace (cos (3 * (PI / 2))) with 0 by (symmetry; apply cos_3PI2). replace (sin (3 * (PI / 2))) with (-1) by (symmetry; apply sin_3PI2).
    replace (cos (PI + 2 * PI)) with (-1) by (replace (PI + 2 * PI) with (PI + 2 * INR 1 * PI) by (simpl; ring); rewrite cos_period, cos_PI; reflexivity).
    replace (sin (PI + 2 * PI)) with 0 by (replace (PI + 2 * PI) with (PI + 2 * INR 1 * PI) by (simpl; ring); rewrite sin_period, sin_PI; reflexivity).
    rewrite ?cos_2PI, ?sin_2PI, ?cos_0, ?sin_0, ?cos_PI, ?sin_PI, ?cos_PI2, ?sin_PI2. intros a b e f. lra. }
  pose proof (Q 0) as a. pose proof (Q (PI / 2)) as b. pose proof (Q PI) as e. revert a b e. rewrite Rmult_0_r. replace (2 * (PI / 2)) with PI by field. rewrite ?cos_2PI, ?cos_0, ?cos_PI, ?cos_PI2.
  assert (S : sin th ^ 2 = 1 - c ^ 2). { pose proof (sin2_cos2 th) as E. unfold Rsqr in E. unfold th in *. rewrite cos_acos in E by exact c1. simpl. lra. }
  rewrite S. unfold th. rewrite cos_acos by exact c1. intros a b e. ring_dist. lra.
Qed.
Lemma phi_pos (J : jkey -> R) (phi : R) : dist_pos J -> 0 <= sum_ang (dG_dq2_dphi J) (_angle_diff phi).
Proof.
  intros P. pose proof (P 0 0 phi) as a. pose proof (P 0 (PI / 2) phi) as b. pose proof (P 0 PI phi) as e. pose proof (P (PI / 2) 0 phi) as a'. pose proof (P (PI / 2) (PI / 2) phi) as b'. pose proof (P (PI / 2) PI phi) as e'.
  revert a b e a' b' e'. nodes. intros a b e a' b' e'. ring_dist. pose proof PI_RGT_0 as PP. apply (Rmult_le_reg_l PI); [exact PP |].
  replace (PI * (0 + 1 / (8 * PI) * (3 * J J1c + 6 * J J1s - J J2c - 2 * J J2s) * 1 + 1 / (2 * PI) * J J3 * cos (2 * phi) + 1 / (2 * PI) * J J9 * sin (2 * phi)))
    with ((3 * J J1c + 6 * J J1s - J J2c - 2 * J J2s) / 8 + (J J3 * cos (2 * phi) + J J9 * sin (2 * phi)) / 2) by (field; lra). lra.
Qed.
Lemma L_pos (J : jkey -> R) : dist_pos J -> 0 <= dGdq2_L J /\ 0 <= dGdq2_T J.
Proof.
  intros P. pose proof (thV_pos J 1 P) as a. pose proof (thV_pos J 0 P) as b. revert a b. ring_dist. unfold dGdq2_L, dGdq2_T. intros a b. split; [specialize (a ltac:(lra)) | specialize (b ltac:(lra))]; lra.
Qed.
Lemma LT (J : jkey -> R) : dGdq2_L J + dGdq2_T J = vdGdq2 J.
Proof. unfold dGdq2_L, dGdq2_T, vdGdq2. field. Qed.
Lemma coeffs_pos (H : amps) (q2 mB mV m1 m2 : R) : physical q2 m1 m2 -> 0 < mB -> dist_pos (angularcoeffs_general_v H q2 mB mV m1 m2).
Proof.
  intros Ph HB thK thl phi. rewrite distribution_is by assumption. apply Rmult_le_pos.
  - pose proof (norm_pos q2 mB mV m1 m2 HB) as P. destruct Ph as (_ & _ & Q & _). specialize (P Q). lra.
  - unfold helicity_sum. cbv zeta. repeat apply Rplus_le_le_0_compat; apply pow2_ge_0.
Qed.
