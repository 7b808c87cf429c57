(** * Proofs for the helicity amplitudes *)
From Coq Require Import Reals Lra Psatz.
From Coquelicot Require Import Complex.
From Verif Require Import Base Basics_Model Basics_Proofs Angular_Model Angular_Spec Angular_Proofs Angular_Proofs4 Angular_Proofs8 AngularFF_Spec.
Local Open Scope R_scope.

Lemma C_ext (z w : C) : fst z = fst w -> snd z = snd w -> z = w.
Proof. destruct z, w. cbn [fst snd]. now intros -> ->. Qed.
Section Frame.
  Variables (q2 mB mV : R).
  Hypotheses (Hq : 0 < q2) (HB : 0 < mB) (HV : 0 < mV) (HT : 0 <= triangle (mB ^ 2) (mV ^ 2) q2).
  Let r := sqrt (triangle (mB ^ 2) (mV ^ 2) q2).
  Lemma r_sq : r * r = triangle (mB ^ 2) (mV ^ 2) q2. Proof using HT. now apply sqrt_sqrt. Qed.
  Lemma h2 : / sqrt 2 * / sqrt 2 = / 2.
  Proof using. rewrite <- Rinv_mult, sqrt_sqrt by lra. reflexivity. Qed.
  Lemma sq_ne : sqrt q2 <> 0. Proof using Hq. apply Rgt_not_eq. now apply sqrt_lt_R0. Qed.
  Ltac comp := apply C_ext; unfold dot, levi, det3, add4, p_B, p_M, p_q, pol_M, pol_q, momentum, real4; cbn [e0 e1 e2 e3]; unfold Cminus, Cplus, Copp, Cmult, RtoC, Ci; cbn [e0 e1 e2 e3 fst snd]; fold r.
  Lemma ee0 : dot (pol_q q2 mB mV H0) (pol_M q2 mB mV H0) = RtoC (- (mB ^ 2 - mV ^ 2 - q2) / (2 * mV * sqrt q2)).
  Proof using Hq HB HV HT.
    pose proof sq_ne. pose proof r_sq as R. comp; [| unfold Rdiv; ring].
    apply Rmult_eq_reg_r with (4 * mB ^ 2 * mV * sqrt q2); [| apply Rmult_integral_contrapositive_currified; [pose proof (pow_lt mB 2 HB); nra | assumption]].
    transitivity (- (r * r) - (mB ^ 2 + mV ^ 2 - q2) * (mB ^ 2 - mV ^ 2 + q2)); [field; lra |]. rewrite R. unfold triangle. field. lra.
  Qed.
  Lemma eepm l : l <> H0 -> dot (pol_q q2 mB mV l) (pol_M q2 mB mV l) = RtoC 1.
  Proof using. pose proof h2 as h. destruct l; [easy | |]; intros _; comp; set (x := / sqrt 2) in *; lra. Qed.
  Lemma eq0 : dot (pol_M q2 mB mV H0) (p_q q2 mB mV) = RtoC (r / (2 * mV)).
  Proof using HB HV. comp; [field; lra | unfold Rdiv; ring]. Qed.
  Lemma eqpm l : l <> H0 -> dot (pol_M q2 mB mV l) (p_q q2 mB mV) = RtoC 0.
  Proof using. destruct l; [easy | |]; intros _; comp; ring. Qed.
  Lemma epk0 : dot (pol_q q2 mB mV H0) (add4 (p_B mB) (p_M q2 mB mV)) = RtoC (- (r / sqrt q2)).
  Proof using HB Hq. pose proof sq_ne. comp; [field; lra | unfold Rdiv; ring]. Qed.
  Lemma epkpm l : l <> H0 -> dot (pol_q q2 mB mV l) (add4 (p_B mB) (p_M q2 mB mV)) = RtoC 0.
  Proof using. destruct l; [easy | |]; intros _; comp; ring. Qed.
  Lemma epq l : dot (pol_q q2 mB mV l) (p_q q2 mB mV) = RtoC 0.
  Proof using. destruct l; comp; unfold Rdiv; ring. Qed.
  Ltac cl := unfold levi, det3, pol_q, pol_M, p_B, p_M, p_q, real4; cbn [e0 e1 e2 e3]; unfold momentum; fold r.
  Lemma levi0 : levi (pol_q q2 mB mV H0) (pol_M q2 mB mV H0) (p_B mB) (p_M q2 mB mV) = RtoC 0.
  Proof using. cl. ring. Qed.
  Lemma lv : (RtoC mB * RtoC (r / (2 * mB)) * Ci * (RtoC (/ sqrt 2) * RtoC (/ sqrt 2) + RtoC (/ sqrt 2) * RtoC (/ sqrt 2)) = Ci * RtoC (r / 2))%C.
  Proof using HB.
    transitivity (Ci * RtoC (mB * (r / (2 * mB)) * (/ sqrt 2 * / sqrt 2 + / sqrt 2 * / sqrt 2)))%C; [rewrite !RtoC_mult, RtoC_plus, !RtoC_mult; ring |].
    f_equal. f_equal. rewrite h2. field. lra.
  Qed.
  Lemma levip : levi (pol_q q2 mB mV Hpl) (pol_M q2 mB mV Hpl) (p_B mB) (p_M q2 mB mV) = (Ci * RtoC (r / 2))%C.
  Proof using HB. rewrite <- lv. cl. rewrite RtoC_opp. ring. Qed.
  Lemma levim : levi (pol_q q2 mB mV Hmi) (pol_M q2 mB mV Hmi) (p_B mB) (p_M q2 mB mV) = (- (Ci * RtoC (r / 2)))%C.
  Proof using HB. rewrite <- lv. cl. rewrite RtoC_opp. ring. Qed.
End Frame.

Section Amplitudes.
  Variables (q2 mB mV mqh mql m1 m2 : R) (F : ffs) (ff : ffkey -> R) (wc : wckey -> C) (pre : C).
  Hypotheses (Hq : 0 < q2) (HB : 0 < mB) (HV : 0 < mV) (HVB : mV < mB) (HT : 0 <= triangle (mB ^ 2) (mV ^ 2) q2) (HF : same_form_factors q2 mB mV ff F).
  Let H := helicity_amps_v q2 mB mV mqh mql m1 m2 ff wc pre.
  Let r := sqrt (triangle (mB ^ 2) (mV ^ 2) q2).
  Let eps l := pol_q q2 mB mV l.
  Lemma axial0 : axial_current q2 mB mV F (eps H0) H0 = (- (Ci * RtoC (8 * mB * mV / sqrt q2 * ff FA12)))%C.
  Proof using Hq HB HV HT HF HVB.
    destruct HF as (_ & _ & _ & E & _). unfold axial_current, eps. rewrite ee0, epk0, eq0, epq by assumption. fold r.
    rewrite Cmult_0_r. rewrite <- !RtoC_mult. unfold Cminus. rewrite <- !RtoC_opp, <- !RtoC_plus. replace (- (Ci * RtoC (8 * mB * mV / sqrt q2 * ff FA12)))%C with (Ci * RtoC (- (8 * mB * mV / sqrt q2 * ff FA12)))%C by (rewrite RtoC_opp; ring).
    f_equal. f_equal. rewrite E. rewrite <- (r_sq q2 mB mV HT). fold r. pose proof (sq_ne q2 Hq). field. lra.
  Qed.
  Lemma dipole50 : dipole5_current q2 mB mV F (eps H0) H0 = (- (Ci * RtoC (4 * mB * mV * sqrt q2 / (mB + mV) * ff FT23)))%C.
  Proof using Hq HB HV HT HF HVB.
    destruct HF as (_ & _ & _ & _ & _ & _ & E). unfold dipole5_current, eps. rewrite ee0, epk0, eq0, epq by assumption. fold r.
    unfold Cminus. repeat first [rewrite <- RtoC_mult | rewrite <- RtoC_opp | rewrite <- RtoC_plus].
    replace (- (Ci * RtoC (4 * mB * mV * sqrt q2 / (mB + mV) * ff FT23)))%C with (Ci * RtoC (- (4 * mB * mV * sqrt q2 / (mB + mV) * ff FT23)))%C by (rewrite RtoC_opp; ring).
    f_equal. f_equal. rewrite E. pose proof (sq_ne q2 Hq) as N. assert (D : mB ^ 2 - mV ^ 2 <> 0) by nra.
    assert (S : sqrt q2 * sqrt q2 = q2) by (apply sqrt_sqrt; lra). pose proof (r_sq q2 mB mV HT) as R. fold r in R.
    apply Rmult_eq_reg_r with (2 * mV * sqrt q2 * (mB ^ 2 - mV ^ 2)); [| repeat apply Rmult_integral_contrapositive_currified; lra].
    transitivity (- ((mB ^ 2 - mV ^ 2) * f_T2 F * ((mB ^ 2 - mV ^ 2) * (mB ^ 2 - mV ^ 2 - q2) - r * r) - f_T3 F * q2 * (r * r))); [field; lra |].
    transitivity (- (sqrt q2 * sqrt q2 * ((mB ^ 2 - mV ^ 2) * (mB ^ 2 + 3 * mV ^ 2 - q2) * f_T2 F - triangle (mB ^ 2) (mV ^ 2) q2 * f_T3 F))); [| field; lra].
    rewrite S, R. unfold triangle. ring.
  Qed.
  Lemma axialpm l : l <> H0 -> axial_current q2 mB mV F (eps l) l = (Ci * RtoC ((mB + mV) * ff FA1))%C.
  Proof using HF. intros L. destruct HF as (_ & _ & E & _). unfold axial_current, eps. rewrite eepm, epkpm, eqpm by assumption. rewrite E. ring. Qed.
  Lemma dipole5pm l : l <> H0 -> dipole5_current q2 mB mV F (eps l) l = (Ci * RtoC ((mB ^ 2 - mV ^ 2) * ff FT2))%C.
  Proof using HF. intros L. destruct HF as (_ & _ & _ & _ & _ & E & _). unfold dipole5_current, eps. rewrite eepm, epkpm, eqpm by assumption. rewrite E, RtoC_mult. ring. Qed.
  Lemma axialq : axial_current q2 mB mV F (p_q q2 mB mV) H0 = (Ci * RtoC (r * ff FA0))%C.
  Proof using Hq HB HV HT HF.
    destruct HF as (_ & E & _). unfold axial_current.
    assert (dq : dot (p_q q2 mB mV) (p_q q2 mB mV) = RtoC q2).
    { pose proof (r_sq q2 mB mV HT) as R. fold r in R. apply C_ext; unfold dot, p_q, momentum, real4; cbn [e0 e1 e2 e3]; unfold Cminus, Cplus, Copp, Cmult, RtoC; cbn [fst snd]; fold r; [| ring].
      apply Rmult_eq_reg_r with (4 * mB ^ 2); [| pose proof (pow_lt mB 2 HB); lra]. transitivity ((mB ^ 2 - mV ^ 2 + q2) ^ 2 - r * r); [field; lra |]. rewrite R. unfold triangle. ring. }
    assert (dp : dot (p_q q2 mB mV) (add4 (p_B mB) (p_M q2 mB mV)) = RtoC (mB ^ 2 - mV ^ 2)).
    { pose proof (r_sq q2 mB mV HT) as R. fold r in R. apply C_ext; unfold dot, add4, p_B, p_M, p_q, momentum, real4; cbn [e0 e1 e2 e3]; unfold Cminus, Cplus, Copp, Cmult, RtoC; cbn [fst snd]; fold r; [| ring].
      apply Rmult_eq_reg_r with (4 * mB ^ 2); [| pose proof (pow_lt mB 2 HB); lra]. transitivity ((mB ^ 2 - mV ^ 2 + q2) * (3 * mB ^ 2 + mV ^ 2 - q2) + r * r); [field; lra |]. rewrite R. unfold triangle. ring. }
    replace (dot (p_q q2 mB mV) (pol_M q2 mB mV H0)) with (dot (pol_M q2 mB mV H0) (p_q q2 mB mV)) by (unfold dot; ring).
    rewrite dq, dp, eq0 by assumption. fold r. rewrite <- !RtoC_mult. unfold Cminus. rewrite <- !RtoC_opp, <- !RtoC_plus. f_equal. f_equal. rewrite E. field. lra.
  Qed.
  Ltac amp0 := unfold H, helicity_amps_v; cbv zeta; cbn [aV aA aP aS aT aTt]; rewrite ?sqrt_lambda; fold r.
  Lemma amp_V0 : aV H H0 = (pre * (RtoC (/ 2) * chiral q2 mB mV F (eps H0) H0 (wc Wv) (wc Wvp) + RtoC (mqh / q2) * dipole q2 mB mV F (eps H0) H0 (wc W7) (wc W7p)))%C.
  Proof using Hq HB HV HVB HT HF.
    amp0. unfold chiral, dipole. rewrite axial0, dipole50. unfold vector_current, dipole_current. unfold eps. rewrite levi0. pose proof (sq_ne q2 Hq) as N.
    rewrite !Cdiv_real by (apply Rmult_integral_contrapositive_currified; lra).
    replace (8 * mB * mV / sqrt q2 * ff FA12) with (8 * (mB * mV * / sqrt q2 * ff FA12)) by (field; assumption).
    assert (E : RtoC (/ (sqrt q2 * (mB + mV))) = (RtoC (/ sqrt q2) * RtoC (/ (mB + mV)))%C) by (rewrite <- RtoC_mult; f_equal; field; split; lra).
    assert (E1 : (RtoC (/ (mB + mV)) * RtoC (mB + mV))%C = RtoC 1) by (rewrite <- RtoC_mult; f_equal; field; lra).
    replace (mqh / q2) with (mqh * / sqrt q2 * / sqrt q2) by (rewrite <- (sqrt_sqrt q2) at 3 by lra; field; assumption).
    replace (4 * mB * mV * sqrt q2 / (mB + mV) * ff FT23) with (4 * mB * mV * sqrt q2 * / (mB + mV) * ff FT23) by (field; lra).
    assert (E2 : (RtoC (/ sqrt q2) * RtoC (sqrt q2))%C = RtoC 1) by (rewrite <- RtoC_mult; f_equal; field; assumption).
    replace (8 * (mB * mV * / sqrt q2 * ff FA12)) with (2 * (4 * (mB * mV * / sqrt q2 * ff FA12))) by ring. 
    assert (E3 : (RtoC (/ 2) * RtoC 2)%C = RtoC 1) by (rewrite <- RtoC_mult; f_equal; field).
    rewrite E. rewrite !RtoC_mult. ring [E1 E2 E3].
  Qed.
  Lemma two_half : (RtoC (/ 2) * RtoC 2)%C = RtoC 1.
  Proof using. rewrite <- RtoC_mult. f_equal. field. Qed.
  Lemma amp_A0 : aA H H0 = (pre * (RtoC (/ 2) * chiral q2 mB mV F (eps H0) H0 (wc Wa) (wc Wap)))%C.
  Proof using Hq HB HV HVB HT HF.
    amp0. unfold chiral. rewrite axial0. unfold vector_current. unfold eps. rewrite levi0. pose proof (sq_ne q2 Hq) as N. rewrite !Cdiv_real by lra.
    replace (8 * mB * mV / sqrt q2 * ff FA12) with (2 * (4 * (mB * mV * / sqrt q2 * ff FA12))) by (field; assumption). pose proof two_half as E3. rewrite !RtoC_mult. ring [E3].
  Qed.
  Lemma halves : RtoC (/ (2 * (mB + mV))) = (RtoC (/ 2) * RtoC (/ (mB + mV)))%C.
  Proof using HB HV. rewrite <- RtoC_mult. f_equal. field. lra. Qed.
  Lemma sum_inv : (RtoC (/ (mB + mV)) * RtoC (mB + mV))%C = RtoC 1.
  Proof using HB HV. rewrite <- RtoC_mult. f_equal. field. lra. Qed.
  Ltac pm := let N := fresh "N" in assert (N : 2 * (mB + mV) <> 0) by lra; amp0; unfold chiral, dipole; rewrite ?axialpm, ?dipole5pm by easy; unfold vector_current, dipole_current; unfold eps;
    rewrite ?levip, ?levim by assumption; fold r; destruct HF as (FE1 & FE2 & FE3 & FE4 & FE5 & FE6 & FE7);
    rewrite ?(Cdiv_real _ _ N), ?(Cdiv_real _ q2) by lra; rewrite ?halves;
    pose proof two_half as E3; pose proof sum_inv as E1; pose proof Ci_sq as E4;
    try replace (2 * f_V F / (mB + mV)) with (2 * f_V F * / (mB + mV)) by reflexivity; try replace (r / 2) with (r * / 2) by reflexivity;
    try replace (mqh / q2) with (mqh * / q2) by reflexivity; try replace ((mB + mV) ^ 2) with ((mB + mV) * (mB + mV)) by ring;
    try replace (ff FV) with (f_V F) by (symmetry; exact FE1); try replace (ff FT1) with (f_T1 F) by (symmetry; exact FE5);
    rewrite ?RtoC_mult; clear FE1 FE2 FE3 FE4 FE5 FE6 FE7.
  Lemma amp_Vpl : aV H Hpl = (pre * (RtoC (/ 2) * chiral q2 mB mV F (eps Hpl) Hpl (wc Wv) (wc Wvp) + RtoC (mqh / q2) * dipole q2 mB mV F (eps Hpl) Hpl (wc W7) (wc W7p)))%C.
  Proof using Hq HB HV HT HF. pm. ring [E1 E3]. Qed.
  Lemma amp_Vmi : aV H Hmi = (pre * (RtoC (/ 2) * chiral q2 mB mV F (eps Hmi) Hmi (wc Wv) (wc Wvp) + RtoC (mqh / q2) * dipole q2 mB mV F (eps Hmi) Hmi (wc W7) (wc W7p)))%C.
  Proof using Hq HB HV HT HF. pm. ring [E1 E3]. Qed.
  Lemma amp_Apl : aA H Hpl = (pre * (RtoC (/ 2) * chiral q2 mB mV F (eps Hpl) Hpl (wc Wa) (wc Wap)))%C.
  Proof using Hq HB HV HT HF. pm. ring [E1 E3]. Qed.
  Lemma amp_Ami : aA H Hmi = (pre * (RtoC (/ 2) * chiral q2 mB mV F (eps Hmi) Hmi (wc Wa) (wc Wap)))%C.
  Proof using Hq HB HV HT HF. pm. ring [E1 E3]. Qed.
  Lemma root_inv : RtoC (1 / (sqrt 2 * sqrt q2)) = (RtoC (/ sqrt 2) * RtoC (/ sqrt q2))%C.
  Proof using Hq. pose proof (sq_ne q2 Hq). rewrite <- RtoC_mult. f_equal. field. split; [assumption | apply root2_ne]. Qed.
  Lemma amp_Tpl : aT H Hpl = (pre * (- Ci * RtoC (/ (sqrt 2 * sqrt q2)) * dipole q2 mB mV F (eps Hpl) Hpl (wc Wt) (- wc Wtp)))%C.
  Proof using Hq HB HV HT HF. pm. replace (1 / (sqrt 2 * sqrt q2)) with (/ (sqrt 2 * sqrt q2)) by (unfold Rdiv; ring). ring [E1 E3 E4]. Qed.
  Lemma amp_Tmi : aT H Hmi = (pre * (- Ci * RtoC (/ (sqrt 2 * sqrt q2)) * dipole q2 mB mV F (eps Hmi) Hmi (wc Wt) (- wc Wtp)))%C.
  Proof using Hq HB HV HT HF. pm. replace (1 / (sqrt 2 * sqrt q2)) with (/ (sqrt 2 * sqrt q2)) by (unfold Rdiv; ring). ring [E1 E3 E4]. Qed.
  Lemma amp_Ttpl : aTt H Hpl = (pre * (- Ci * RtoC (/ (2 * sqrt q2)) * dipole q2 mB mV F (eps Hpl) Hpl (wc Wt) (wc Wtp)))%C.
  Proof using Hq HB HV HT HF. pm. replace (1 / (2 * sqrt q2)) with (/ (2 * sqrt q2)) by (unfold Rdiv; ring). ring [E1 E3 E4]. Qed.
  Lemma amp_Ttmi : aTt H Hmi = (pre * (- Ci * RtoC (/ (2 * sqrt q2)) * dipole q2 mB mV F (eps Hmi) Hmi (wc Wt) (wc Wtp)))%C.
  Proof using Hq HB HV HT HF. pm. replace (1 / (2 * sqrt q2)) with (/ (2 * sqrt q2)) by (unfold Rdiv; ring). ring [E1 E3 E4]. Qed.
  Lemma amp_T0 : aT H H0 = (pre * (- Ci * RtoC (/ (sqrt 2 * sqrt q2)) * dipole q2 mB mV F (eps H0) H0 (wc Wt) (- wc Wtp)))%C.
  Proof using Hq HB HV HVB HT HF.
    amp0. unfold dipole. rewrite dipole50. unfold dipole_current, eps. rewrite levi0. pose proof Ci_sq as E4.
    assert (E : RtoC (2 * sqrt 2 * mB * mV / (mB + mV)) = (RtoC (/ (sqrt 2 * sqrt q2)) * RtoC (4 * mB * mV * sqrt q2 / (mB + mV)))%C).
    { rewrite <- RtoC_mult. f_equal. pose proof (sq_ne q2 Hq). pose proof root2_ne. apply Rmult_eq_reg_r with (sqrt 2); [| assumption]. transitivity (2 * (sqrt 2 * sqrt 2) * mB * mV / (mB + mV)); [field; lra |]. rewrite sqrt_sqrt by lra. field. lra. }
    rewrite E. rewrite (RtoC_mult (4 * mB * mV * sqrt q2 / (mB + mV))). ring [E4].
  Qed.
  Lemma amp_Tt0 : aTt H H0 = (pre * (- Ci * RtoC (/ (2 * sqrt q2)) * dipole q2 mB mV F (eps H0) H0 (wc Wt) (wc Wtp)))%C.
  Proof using Hq HB HV HVB HT HF.
    amp0. unfold dipole. rewrite dipole50. unfold dipole_current, eps. rewrite levi0. pose proof Ci_sq as E4.
    assert (E : RtoC (2 * mB * mV / (mB + mV)) = (RtoC (/ (2 * sqrt q2)) * RtoC (4 * mB * mV * sqrt q2 / (mB + mV)))%C).
    { rewrite <- RtoC_mult. f_equal. pose proof (sq_ne q2 Hq). field. lra. }
    rewrite E. rewrite (RtoC_mult (4 * mB * mV * sqrt q2 / (mB + mV))). ring [E4].
  Qed.
  Hypothesis Hm : mqh + mql <> 0.
  Lemma amp_P : aP H = (pre * (RtoC (/ 2) * axial_current q2 mB mV F (p_q q2 mB mV) H0 * ((wc Wp - wc Wpp) / RtoC (mqh + mql) + RtoC ((m1 + m2) / q2) * (wc Wa - wc Wap))))%C.
  Proof using Hq HB HV HT HF Hm.
    amp0. rewrite axialq. assert (T2 : 2 <> 0) by lra. rewrite (Cdiv_real _ 2 T2), (Cdiv_real _ _ Hm), RtoC_mult. ring.
  Qed.
  Lemma amp_S : aS H = (pre * (RtoC (/ 2) * axial_current q2 mB mV F (p_q q2 mB mV) H0 * ((wc Ws - wc Wsp) / RtoC (mqh + mql) + RtoC ((m1 - m2) / q2) * (wc Wv - wc Wvp))))%C.
  Proof using Hq HB HV HT HF Hm.
    amp0. rewrite axialq. assert (T2 : 2 <> 0) by lra. rewrite (Cdiv_real _ 2 T2), (Cdiv_real _ _ Hm), RtoC_mult. ring.
  Qed.
End Amplitudes.

(** ** B -> P *)
Section AmplitudesP.
  Variables (q2 mB mP mqh mql m1 m2 : R) (ff : ffkey -> R) (wc : wckey -> C) (pre : C).
  Hypotheses (Hq : 0 < q2) (HB : 0 < mB) (HP : 0 < mP) (HT : 0 <= triangle (mB ^ 2) (mP ^ 2) q2) (Hm : mqh - mql <> 0).
  Let h := helicity_amps_p q2 mB mP mqh mql m1 m2 ff wc pre.
  Let r := sqrt (triangle (mB ^ 2) (mP ^ 2) q2).
  Let eps := neg4 (pol_q q2 mB mP H0).
  Lemma dot_neg (a b : four) : dot (neg4 a) b = (- dot a b)%C.
  Proof using. unfold dot, neg4. cbn [e0 e1 e2 e3]. ring. Qed.
  Lemma vcp : vector_current_p q2 mB mP (ff Fplus) (ff Fzero) eps = RtoC (ff Fplus * (r / sqrt q2)).
  Proof using Hq HB.
    unfold vector_current_p, eps. rewrite !dot_neg, epk0, epq by assumption. fold r. rewrite !RtoC_mult, RtoC_opp. ring.
  Qed.
  Lemma dcp : dipole_current_p q2 mB mP (ff Ftens) eps = RtoC (ff Ftens / (mB + mP) * (q2 * (r / sqrt q2))).
  Proof using Hq HB.
    unfold dipole_current_p, eps. rewrite !dot_neg, epk0, epq by assumption. fold r. rewrite !RtoC_mult, RtoC_opp. ring.
  Qed.
  Lemma dqq : dot (p_q q2 mB mP) (p_q q2 mB mP) = RtoC q2.
  Proof using HB HT.
    pose proof (r_sq q2 mB mP HT) as R. fold r in R. apply C_ext; unfold dot, p_q, momentum, real4; cbn [e0 e1 e2 e3]; unfold Cminus, Cplus, Copp, Cmult, RtoC; cbn [fst snd]; fold r; [| ring].
    apply Rmult_eq_reg_r with (4 * mB ^ 2); [| pose proof (pow_lt mB 2 HB); lra]. transitivity ((mB ^ 2 - mP ^ 2 + q2) ^ 2 - r * r); [field; lra |]. rewrite R. unfold triangle. ring.
  Qed.
  Lemma dqp : dot (p_q q2 mB mP) (add4 (p_B mB) (p_M q2 mB mP)) = RtoC (mB ^ 2 - mP ^ 2).
  Proof using HB HT.
    pose proof (r_sq q2 mB mP HT) as R. fold r in R. apply C_ext; unfold dot, add4, p_B, p_M, p_q, momentum, real4; cbn [e0 e1 e2 e3]; unfold Cminus, Cplus, Copp, Cmult, RtoC; cbn [fst snd]; fold r; [| ring].
    apply Rmult_eq_reg_r with (4 * mB ^ 2); [| pose proof (pow_lt mB 2 HB); lra]. transitivity ((mB ^ 2 - mP ^ 2 + q2) * (3 * mB ^ 2 + mP ^ 2 - q2) + r * r); [field; lra |]. rewrite R. unfold triangle. ring.
  Qed.
  Lemma vcq : vector_current_p q2 mB mP (ff Fplus) (ff Fzero) (p_q q2 mB mP) = RtoC (ff Fzero * (mB ^ 2 - mP ^ 2)).
  Proof using Hq HB HT.
    unfold vector_current_p. rewrite dqq, dqp. rewrite <- !RtoC_mult. unfold Cminus. rewrite <- !RtoC_opp, <- !RtoC_plus, <- !RtoC_mult, <- !RtoC_plus. f_equal. field. lra.
  Qed.
  Ltac ampp := unfold h, helicity_amps_p; cbv zeta; cbn [pV pA pS pP pT pTt]; rewrite ?sqrt_lambda; fold r.
  Lemma amp_pV : pV h = (pre * (RtoC (/ 2) * (wc Wv + wc Wvp) * vector_current_p q2 mB mP (ff Fplus) (ff Fzero) eps
      + RtoC (mqh / q2) * (wc W7 + wc W7p) * dipole_current_p q2 mB mP (ff Ftens) eps))%C.
  Proof using Hq HB HP.
    ampp. rewrite vcp, dcp. pose proof (sq_ne q2 Hq) as N.
    assert (A1 : RtoC (r / (2 * sqrt q2) * (2 * mqh / (mB + mP) * ff Ftens)) = RtoC (mqh / q2 * (ff Ftens / (mB + mP) * (q2 * (r / sqrt q2))))) by (f_equal; field; repeat split; lra).
    assert (A2 : RtoC (r / (2 * sqrt q2) * ff Fplus) = RtoC (/ 2 * (ff Fplus * (r / sqrt q2)))) by (f_equal; field; assumption).
    rewrite (RtoC_mult (r / (2 * sqrt q2))) in A1, A2. rewrite (RtoC_mult (2 * mqh / (mB + mP))), (RtoC_mult (mqh / q2)) in A1. rewrite (RtoC_mult (/ 2)) in A2.
    transitivity (pre * ((wc W7 + wc W7p) * (RtoC (r / (2 * sqrt q2)) * (RtoC (2 * mqh / (mB + mP)) * RtoC (ff Ftens))) + (wc Wv + wc Wvp) * (RtoC (r / (2 * sqrt q2)) * RtoC (ff Fplus))))%C; [ring |].
    rewrite A1, A2. ring.
  Qed.
  Lemma amp_pA : pA h = (pre * (RtoC (/ 2) * (wc Wa + wc Wap) * vector_current_p q2 mB mP (ff Fplus) (ff Fzero) eps))%C.
  Proof using Hq HB.
    ampp. rewrite vcp. pose proof (sq_ne q2 Hq) as N.
    assert (A2 : RtoC (r / (2 * sqrt q2) * ff Fplus) = RtoC (/ 2 * (ff Fplus * (r / sqrt q2)))) by (f_equal; field; assumption).
    rewrite (RtoC_mult (r / (2 * sqrt q2))), (RtoC_mult (/ 2)) in A2.
    transitivity (pre * ((wc Wa + wc Wap) * (RtoC (r / (2 * sqrt q2)) * RtoC (ff Fplus))))%C; [ring |]. rewrite A2. ring.
  Qed.
  Lemma amp_pS : pS h = (pre * (RtoC (/ 2) * vector_current_p q2 mB mP (ff Fplus) (ff Fzero) (p_q q2 mB mP) * ((wc Ws + wc Wsp) / RtoC (mqh - mql) + RtoC ((m1 - m2) / q2) * (wc Wv + wc Wvp))))%C.
  Proof using Hq HB HT.
    ampp. rewrite vcq. rewrite <- RtoC_mult. replace ((mB ^ 2 - mP ^ 2) / 2 * ff Fzero) with (/ 2 * (ff Fzero * (mB ^ 2 - mP ^ 2))) by field. reflexivity.
  Qed.
  Lemma amp_pP : pP h = (pre * (RtoC (/ 2) * vector_current_p q2 mB mP (ff Fplus) (ff Fzero) (p_q q2 mB mP) * ((wc Wp + wc Wpp) / RtoC (mqh - mql) + RtoC ((m1 + m2) / q2) * (wc Wa + wc Wap))))%C.
  Proof using Hq HB HT.
    ampp. rewrite vcq. rewrite <- RtoC_mult. replace ((mB ^ 2 - mP ^ 2) / 2 * ff Fzero) with (/ 2 * (ff Fzero * (mB ^ 2 - mP ^ 2))) by field. reflexivity.
  Qed.
  Lemma tens_p : (RtoC r / RtoC (2 * (mB + mP)) * RtoC (ff Ftens))%C = (RtoC (/ (2 * sqrt q2)) * dipole_current_p q2 mB mP (ff Ftens) eps)%C.
  Proof using Hq HB HP.
    rewrite dcp. pose proof (sq_ne q2 Hq) as N. rewrite Cdiv_real by lra. rewrite <- !RtoC_mult. f_equal. pose proof (sqrt_sqrt q2 (Rlt_le _ _ Hq)) as E.
    transitivity (/ (2 * sqrt q2) * (ff Ftens / (mB + mP) * ((sqrt q2 * sqrt q2) * (r / sqrt q2)))); [| now rewrite E]. field. split; lra.
  Qed.
  Lemma amp_pTt : pTt h = (pre * (- Ci * RtoC (/ (2 * sqrt q2)) * (wc Wt + wc Wtp) * dipole_current_p q2 mB mP (ff Ftens) eps))%C.
  Proof using Hq HB HP.
    ampp. transitivity (pre * - Ci * (wc Wt + wc Wtp) * (RtoC r / RtoC (2 * (mB + mP)) * RtoC (ff Ftens)))%C; [unfold Cdiv; ring |]. rewrite tens_p. ring.
  Qed.
  Lemma amp_pT : pT h = (pre * (- Ci * RtoC (/ (2 * sqrt q2)) * (wc Wt - wc Wtp) * dipole_current_p q2 mB mP (ff Ftens) eps))%C.
  Proof using Hq HB HP.
    ampp. transitivity (pre * - Ci * (wc Wt - wc Wtp) * (RtoC r / RtoC (2 * (mB + mP)) * RtoC (ff Ftens)))%C; [unfold Cdiv; ring |]. rewrite tens_p. ring.
  Qed.
End AmplitudesP.

(** ** chirality *)
Lemma neutrino_spinors (q2 ml : R) : aL q2 ml 0 = vL q2 ml 0 /\ aT_ q2 ml 0 = vT q2 ml 0.
Proof. unfold aT_, vT, aL, vL, u1, w1, u2, w2. rewrite (Rplus_0_r (energy q2 0 ml)), (Rminus_0_r (energy q2 0 ml)). split; reflexivity. Qed.
Definition left_handed_neutrino (wc : wckey -> C) : Prop :=
  wc Wa = (- wc Wv)%C /\ wc Wap = (- wc Wvp)%C /\ wc Wp = (- wc Ws)%C /\ wc Wpp = (- wc Wsp)%C /\
  wc W7 = RtoC 0 /\ wc W7p = RtoC 0 /\ wc Wt = RtoC 0.
Lemma fccc_left c_sm CVL CVR CSR CSL CT : left_handed_neutrino (get_wceff_fccc c_sm CVL CVR CSR CSL CT).
Proof. unfold left_handed_neutrino, get_wceff_fccc, Cdiv. repeat split; ring. Qed.
Lemma nunu_left CL CR : left_handed_neutrino (get_wceff_nunu CL CR).
Proof. unfold left_handed_neutrino, get_wceff_nunu. repeat split; ring. Qed.
Lemma chirality_V (q2 mB mV mqh mql ml : R) ff wc pre : 0 < q2 -> 0 < mB -> 0 < mV -> left_handed_neutrino wc ->
  no_wrong_helicity q2 ml (helicity_amps_v q2 mB mV mqh mql ml 0 ff wc pre).
Proof.
  intros Hq HB HV (a & b & c & d & e & f & g). destruct (neutrino_spinors q2 ml) as (z2 & z3).
  assert (S : sqrt 2 * (1 / (sqrt 2 * sqrt q2)) = 2 * (1 / (2 * sqrt q2))). { field. refine (conj _ (root2_ne)). apply sq_ne, Hq. }
  assert (SC : (RtoC (sqrt 2) * RtoC (1 / (sqrt 2 * sqrt q2)))%C = (RtoC 2 * RtoC (1 / (2 * sqrt q2)))%C) by (rewrite <- !RtoC_mult; now f_equal).
  assert (S0 : sqrt 2 * (2 * sqrt 2 * mB * mV / (mB + mV)) = 2 * (2 * mB * mV / (mB + mV))).
  { replace (sqrt 2 * (2 * sqrt 2 * mB * mV / (mB + mV))) with (2 * (sqrt 2 * sqrt 2) * (mB * mV / (mB + mV))) by (unfold Rdiv; ring). rewrite sqrt_sqrt by lra. unfold Rdiv. ring. }
  assert (SC0 : (RtoC (sqrt 2) * RtoC (2 * sqrt 2 * mB * mV / (mB + mV)))%C = (RtoC 2 * RtoC (2 * mB * mV / (mB + mV)))%C) by (rewrite <- !RtoC_mult; now f_equal).
  set (H := helicity_amps_v q2 mB mV mqh mql ml 0 ff wc pre).
  assert (VA : forall l, (aV H l + aA H l)%C = RtoC 0).
  { pose proof (sq_ne q2 Hq) as N. assert (N2 : sqrt q2 * (mB + mV) <> 0) by (apply Rmult_integral_contrapositive_currified; lra).
    intros l. unfold H, helicity_amps_v. cbv zeta. cbn [aV aA]. destruct l; rewrite a, b, e, f.
    + rewrite (Cdiv_real _ _ N), (Cdiv_real _ _ N2).
      assert (E : (RtoC (/ (sqrt q2 * (mB + mV))) * RtoC (mB + mV))%C = RtoC (/ sqrt q2)) by (rewrite <- RtoC_mult; f_equal; field; lra). ring [E].
    + unfold Cdiv. ring.
    + unfold Cdiv. ring. }
  assert (TT : forall l, (RtoC 2 * Ci * aTt H l + RtoC (sqrt 2) * Ci * aT H l)%C = RtoC 0).
  { intros l. unfold H, helicity_amps_v. cbv zeta. cbn [aT aTt]. rewrite g. destruct l.
    + transitivity (Ci * pre * wc Wtp * RtoC (ff FT23) * (RtoC (sqrt 2) * RtoC (2 * sqrt 2 * mB * mV / (mB + mV)) - RtoC 2 * RtoC (2 * mB * mV / (mB + mV))))%C; [ring |]. rewrite SC0. ring.
    + transitivity (Ci * pre * wc Wtp * (RtoC (sqrt (lambda_K (mB ^ 2) (mV ^ 2) q2)) * RtoC (ff FT1) + RtoC (mB ^ 2 - mV ^ 2) * RtoC (ff FT2)) * (RtoC 2 * RtoC (1 / (2 * sqrt q2)) - RtoC (sqrt 2) * RtoC (1 / (sqrt 2 * sqrt q2))))%C; [ring |]. rewrite SC. ring.
    + transitivity (Ci * pre * wc Wtp * (RtoC (mB ^ 2 - mV ^ 2) * RtoC (ff FT2) - RtoC (sqrt (lambda_K (mB ^ 2) (mV ^ 2) q2)) * RtoC (ff FT1)) * (RtoC 2 * RtoC (1 / (2 * sqrt q2)) - RtoC (sqrt 2) * RtoC (1 / (sqrt 2 * sqrt q2))))%C; [ring |]. rewrite SC. ring. }
  refine (conj _ (conj _ _)).
  - intros l. unfold flip. rewrite z2, z3, mone_C.
    transitivity (RtoC (vT q2 ml 0) * (aV H l + aA H l) + RtoC (vL q2 ml 0) * (RtoC 2 * Ci * aTt H l + RtoC (sqrt 2) * Ci * aT H l))%C; [ring |]. rewrite VA, TT. ring.
  - intros l. unfold same_v, same_a. rewrite z2, z3.
    transitivity (RtoC (vL q2 ml 0) * (aV H l + aA H l) + RtoC (vT q2 ml 0) * (RtoC 2 * Ci * aTt H l + RtoC (sqrt 2) * Ci * aT H l))%C; [ring |]. rewrite VA, TT. ring.
  - unfold scalar, pseudo, H, helicity_amps_v. cbv zeta. cbn [aS aP]. rewrite z3, a, b, c, d. rewrite Rplus_0_r, Rminus_0_r. unfold Cdiv. ring.
Qed.
(** for B -> P without tensor coefficients *)
Lemma chirality_P (q2 mB mP mqh mql ml : R) ff wc pre : 0 < q2 -> left_handed_neutrino wc -> wc Wtp = RtoC 0 ->
  no_wrong_helicity_p q2 ml (helicity_amps_p q2 mB mP mqh mql ml 0 ff wc pre).
Proof.
  intros Hq (a & b & c & d & e & f & g) t. destruct (neutrino_spinors q2 ml) as (z2 & z3).
  unfold no_wrong_helicity_p, flip, same_v, same_a, scalar, pseudo, longitudinal, helicity_amps_p. cbv zeta. cbn [aV aA aS aP aT aTt pV pA pS pP pT pTt].
  rewrite z2, z3, mone_C, a, b, c, d, e, f, g, t, Rplus_0_r, Rminus_0_r. unfold Cdiv. refine (conj _ (conj _ _)); ring.
Qed.
(** with them, the sum of the amplitudes of equal helicities does not vanish *)
Lemma wrong_helicity_P (q2 mB mP mqh mql ml : R) ff wc pre : left_handed_neutrino wc ->
  (same_v q2 ml 0 (longitudinal (helicity_amps_p q2 mB mP mqh mql ml 0 ff wc pre)) H0 + same_a q2 ml 0 (longitudinal (helicity_amps_p q2 mB mP mqh mql ml 0 ff wc pre)) H0)%C
  = (RtoC ((2 - sqrt 2) * vT q2 ml 0) * (Ci * pTt (helicity_amps_p q2 mB mP mqh mql ml 0 ff wc pre)))%C.
Proof.
  intros (a & b & c & d & e & f & g). destruct (neutrino_spinors q2 ml) as (z2 & z3).
  unfold same_v, same_a, longitudinal, helicity_amps_p. cbv zeta. cbn [aV aA aS aP aT aTt pV pA pS pP pT pTt].
  rewrite z2, z3, a, b, e, f, g. replace (RtoC ((2 - sqrt 2) * vT q2 ml 0)) with ((RtoC 2 - RtoC (sqrt 2)) * RtoC (vT q2 ml 0))%C by (rewrite RtoC_mult; unfold Rminus; rewrite RtoC_plus, RtoC_opp; reflexivity). unfold Cdiv. ring.
Qed.
