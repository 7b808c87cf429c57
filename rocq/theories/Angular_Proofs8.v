(** * Proofs for the angular distributions: massless leptons, transversity amplitudes, B -> P l l *)
From Coq Require Import Reals Lra Psatz.
From Coquelicot Require Import Coquelicot.
From Verif Require Import Base Basics_Model Basics_Proofs Angular_Model Angular_Spec Angular_Proofs Angular_Proofs2 Angular_Proofs3 Angular_Proofs4 Angular_Proofs5.
Local Open Scope R_scope.

(** ** massless leptons *)
Section Massless.
  Variables (H : amps) (q2 mB mV : R).
  Hypotheses (Hq : 0 < q2) (HB : 0 < mB) (NT : no_tensors H).
  Let J := angularcoeffs_general_v H q2 mB mV 0 0.
  Lemma massless_physical : physical q2 0 0.
  Proof using Hq. unfold physical. lra. Qed.
  Lemma spinors0 : vL q2 0 0 = 0 /\ aL q2 0 0 = 0 /\ vT q2 0 0 * vT q2 0 0 = q2 /\ aT_ q2 0 0 * aT_ q2 0 0 = q2.
  Proof using Hq.
    unfold vL, aL, vT, aT_, u1, w1, u2, w2. rewrite !Rplus_0_r, !Rminus_0_r.
    assert (E : 0 <= energy q2 0 0). { unfold energy. apply Rmult_le_pos; [lra |]. left. apply Rinv_0_lt_compat. pose proof (sqrt_lt_R0 _ Hq). lra. }
    pose proof (sqrt_sqrt _ E) as S. rewrite S. refine (conj _ (conj _ _)); [ring | ring |].
    assert (Q : (energy q2 0 0 + energy q2 0 0) * (energy q2 0 0 + energy q2 0 0) = q2).
    { pose proof (sqrt_lt_R0 _ Hq). pose proof (sqrt_sqrt q2 (Rlt_le _ _ Hq)) as SQ. assert (E2 : energy q2 0 0 = sqrt q2 / 2) by (unfold energy; rewrite <- SQ at 1; field; lra). rewrite E2. rewrite <- SQ. rewrite !(sqrt_square (sqrt q2)) by lra. field. }
    split; exact Q.
  Qed.
  Lemma same0 l : same_v q2 0 0 H l = RtoC 0 /\ same_a q2 0 0 H l = RtoC 0.
  Proof using Hq NT.
    destruct spinors0 as (a & b & _ & _). destruct (NT l) as [c d]. unfold same_v, same_a. rewrite a, b, c, d. split; ring.
  Qed.
  Lemma massless_s : J J1s = 3 * J J2s.
  Proof using Hq NT.
    destruct (decomposition H q2 mB mV 0 0 massless_physical) as (_ & _ & a & b & _). unfold J. rewrite a, b. unfold eq_T.
    rewrite !(fun l => proj1 (same0 l)), !(fun l => proj2 (same0 l)), !bil_0l. cbn [fst RtoC]. field.
  Qed.
  Lemma massless_c : aS H = RtoC 0 -> aP H = RtoC 0 -> J J1c = - J J2c.
  Proof using Hq NT.
    intros Hs Hp. destruct (decomposition H q2 mB mV 0 0 massless_physical) as (a & b & _). unfold J. rewrite a, b. unfold eq_L, scal_L, scalar, pseudo.
    rewrite !(fun l => proj1 (same0 l)), !(fun l => proj2 (same0 l)), Hs, Hp, !Cmult_0_r, !bil_0l. cbn [fst RtoC]. field.
  Qed.
End Massless.

(** ** transversity amplitudes *)
Definition trans_norm (ta : trans -> C) : R :=
  Cmod (ta T0_L) ^ 2 + Cmod (ta T0_R) ^ 2 + Cmod (ta Tpara_L) ^ 2 + Cmod (ta Tpara_R) ^ 2 + Cmod (ta Tperp_L) ^ 2 + Cmod (ta Tperp_R) ^ 2.
Section Transversity.
  Variables (ta : trans -> C) (q2 mB mV : R).
  Hypotheses (Hq : 0 < q2) (HB : 0 < mB).
  Let H := transversity_to_helicity ta.
  Let J := angularcoeffs_general_v H q2 mB mV 0 0.
  Lemma th_NT : no_tensors H.
  Proof using. intros l. split; reflexivity. Qed.
  Lemma root2_ne : sqrt 2 <> 0.
  Proof using. apply Rgt_not_eq, sqrt_lt_R0. lra. Qed.
  Lemma th_trans : trans_sq H = 2 * (Cmod (ta Tpara_L) ^ 2 + Cmod (ta Tpara_R) ^ 2 + Cmod (ta Tperp_L) ^ 2 + Cmod (ta Tperp_R) ^ 2).
  Proof using.
    unfold trans_sq. rewrite <- !mod_bil. unfold H, transversity_to_helicity. cbn [aV aA]. rewrite !(Cdiv_real _ _ root2_ne).
    rewrite !Cmod_mult, !Cmod_R, !Rpow_mult_distr, pow2_abs. assert (S : (/ sqrt 2) ^ 2 = / 2).
    { replace ((/ sqrt 2) ^ 2) with (/ (sqrt 2 * sqrt 2)) by (field; apply root2_ne). now rewrite sqrt_sqrt by lra. }
    rewrite S, !cmod_sq. destruct (ta Tpara_L), (ta Tpara_R), (ta Tperp_L), (ta Tperp_R). unfold Ci, Cminus, Cplus, Copp. cbn [fst snd]. field.
  Qed.
  Lemma th_long : long_sq H = 2 * (Cmod (ta T0_L) ^ 2 + Cmod (ta T0_R) ^ 2).
  Proof using.
    unfold long_sq. rewrite <- !mod_bil. unfold H, transversity_to_helicity. cbn [aV aA]. rewrite !cmod_sq.
    destruct (ta T0_L), (ta T0_R). unfold Ci, Cminus, Cplus, Copp, Cmult. cbn [fst snd]. ring.
  Qed.
  Lemma massless_kin : kinematics q2 0 0 (sqrt q2) (/ sqrt q2) (sqrt q2 / 2) (sqrt q2 / 2) (sqrt q2 / 2).
  Proof using Hq.
    pose proof (sqrt_lt_R0 _ Hq) as S. pose proof (sqrt_sqrt q2 (Rlt_le _ _ Hq)) as SS.
    assert (E : energy q2 0 0 = sqrt q2 / 2). { unfold energy. rewrite <- SS at 1. field. lra. }
    split; try lra; try exact E.
    - field. lra.
    - rewrite lambda_triangle; [| unfold triangle; nra]. unfold triangle. replace (4 * (sqrt q2 / 2) ^ 2 * sqrt q2 ^ 2) with ((sqrt q2 * sqrt q2) ^ 2) by field. rewrite SS. ring.
  Qed.
  Lemma th_2s : J J2s = 4 / 3 * normalisation q2 mB mV 0 0 * q2 * (Cmod (ta Tpara_L) ^ 2 + Cmod (ta Tpara_R) ^ 2 + Cmod (ta Tperp_L) ^ 2 + Cmod (ta Tperp_R) ^ 2).
  Proof using Hq.
    unfold J. rewrite (nt_2s H q2 mB mV 0 0 _ _ _ _ _ (Rle_refl 0) (Rle_refl 0) massless_kin th_NT), th_trans.
    replace ((sqrt q2 / 2) ^ 2) with (q2 / 4) by (rewrite <- (sqrt_sqrt q2) at 1 by lra; field). field.
  Qed.
  Lemma th_2c : J J2c = - (16 / 3 * normalisation q2 mB mV 0 0 * q2 * (Cmod (ta T0_L) ^ 2 + Cmod (ta T0_R) ^ 2)).
  Proof using Hq.
    unfold J. rewrite (nt_2c H q2 mB mV 0 0 _ _ _ _ _ (Rle_refl 0) (Rle_refl 0) massless_kin th_NT), th_long.
    replace ((sqrt q2 / 2) ^ 2) with (q2 / 4) by (rewrite <- (sqrt_sqrt q2) at 1 by lra; field). field.
  Qed.
  Lemma th_rate : dGdq2 J = 16 / 3 * normalisation q2 mB mV 0 0 * q2 * trans_norm ta.
  Proof using Hq.
    assert (a : J J1s = 3 * J J2s) by (apply massless_s; [exact Hq | exact th_NT]).
    assert (b : J J1c = - J J2c) by (apply massless_c; [exact Hq | exact th_NT | reflexivity | reflexivity]).
    unfold dGdq2. rewrite a, b, th_2s, th_2c. unfold trans_norm. field.
  Qed.
End Transversity.

(** ** B -> P l l *)
Section P.
  Variables (h : pamps) (q2 mB mP m1 m2 : R).
  Hypotheses (Ph : physical q2 m1 m2).
  Let J := angularcoeffs_general_p h q2 mB mP m1 m2.
  Let N := normalisation q2 mB mP m1 m2.
  Let H := longitudinal h.
  Lemma mod_diff (x : R) (a b : C) : Cmod (RtoC x * a - b)%C ^ 2 = x ^ 2 * fst (a .* a) - 2 * x * fst (a .* b) + fst (b .* b).
  Proof using. rewrite cmod_sq. destruct a, b. unfold bil, Cminus, Cplus, Copp, Cmult, Cconj, RtoC. cbn [fst snd]. ring. Qed.
  Lemma distribution_p_is (th : R) : distribution_p J th = 2 * N * helicity_sum_p q2 m1 m2 h th.
  Proof using Ph.
    destruct (kin _ _ _ Ph) as (s & i & k & E1 & E2 & K). destruct Ph as (P1 & P2 & _ & _). pose proof (prods _ _ _ _ _ _ _ _ P1 P2 K) as [p1 p2 p3 p4 p5 p6 p7 p8 p9 p10].
    unfold helicity_sum_p. cbv zeta. fold H. rewrite !mod_diff. rewrite !mod_bil. rewrite Rplus_comm.
    rewrite <- fst_plus, flip_even, same_v_bil, same_a_bil, scal_bil, pseudo_bil, scal_same_l, pseudo_same_l.
    rewrite p1, p2, p3, p4, p5, p7, p8, p9, p10. pose proof (k_sum _ _ _ _ _ _ _ _ K) as Ks. rewrite Ks.
    unfold H, longitudinal. cbn [aV aA aP aS aT aTt]. pull.
    unfold distribution_p, J, angularcoeffs_general_p, angularcoeffs_general_Gbasis_p. cbv zeta. cbn [Ja Jb Jc Gp0 Gp1 Gp2].
    rewrite norm_is. fold N. rewrite (hE1 _ _ _ _ _ _ _ _ P1 P2 K), (hE2 _ _ _ _ _ _ _ _ P1 P2 K), (hsla _ _ _ _ _ _ _ _ K), (hsq _ _ _ _ _ _ _ _ K). rewrite !mod_bil.
    assert (Ei : s * i = 1) by (destruct K; assumption).
    rewrite ?(sw_s (pV h) (pTt h)), ?(sw_s (pA h) (pT h)).
    repeat rewrite <- Cmult_assoc. rewrite ?fold_bil. pull.
    replace (sin th ^ 2) with (1 - cos th ^ 2) by (pose proof (sin_sq th); lra).
    pose proof (hk4 _ _ _ _ _ _ _ _ K) as k4. set (la := lambda_K q2 (m1 ^ 2) (m2 ^ 2)) in *.
    replace (la / (3 * q2)) with (4 / 3 * k ^ 2) by (rewrite <- k4; field; destruct K; nra).
    replace (la / (12 * q2)) with (k ^ 2 / 3) by (rewrite <- k4; field; destruct K; nra).
    replace (la / q2) with (4 * k ^ 2) by (rewrite <- k4; field; destruct K; nra).
    replace (-4 * la / (3 * q2)) with (- 16 / 3 * k ^ 2) by (rewrite <- k4; field; destruct K; nra).
    assert (Hs2 : sqrt 2 * sqrt 2 = 2) by (apply sqrt_sqrt; lra).
    unfold Rdiv. rewrite ?(his _ _ _ _ _ _ _ _ K).
    clear k4 K p1 p2 p3 p4 p5 p6 p7 p8 p9 p10 Ks P1 P2. field [Hs2 Ei].
  Qed.
End P.
