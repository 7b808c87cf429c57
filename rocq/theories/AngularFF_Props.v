(** * Properties of the helicity amplitudes (C121 - C123) *)
From Coq Require Import Reals Lra Psatz.
From Coquelicot Require Import Coquelicot.
From Verif Require Import Base Basics_Model Basics_Proofs Angular_Model Angular_Spec Angular_Proofs AngularFF_Spec AngularFF_Proofs.
Local Open Scope R_scope.

(** ** C121: the helicity amplitudes are contractions of the hadronic matrix elements with polarisation vectors *)
Theorem C121_vector (q2 mB mV mqh mql m1 m2 : R) (F : ffs) (ff : ffkey -> R) (wc : wckey -> C) (pre : C) :
  0 < q2 -> 0 < mB -> 0 < mV -> mV < mB -> 0 <= triangle (mB ^ 2) (mV ^ 2) q2 -> same_form_factors q2 mB mV ff F -> mqh + mql <> 0 ->
  let H := helicity_amps_v q2 mB mV mqh mql m1 m2 ff wc pre in
  (forall l, let eps := pol_q q2 mB mV l in
     aV H l = (pre * (RtoC (/ 2) * chiral q2 mB mV F eps l (wc Wv) (wc Wvp) + RtoC (mqh / q2)%R * dipole q2 mB mV F eps l (wc W7) (wc W7p)))%C /\
     aA H l = (pre * (RtoC (/ 2) * chiral q2 mB mV F eps l (wc Wa) (wc Wap)))%C /\
     aT H l = (pre * (- Ci * RtoC (/ (sqrt 2 * sqrt q2))%R * dipole q2 mB mV F eps l (wc Wt) (- wc Wtp)))%C /\
     aTt H l = (pre * (- Ci * RtoC (/ (2 * sqrt q2))%R * dipole q2 mB mV F eps l (wc Wt) (wc Wtp)))%C) /\
  aP H = (pre * (RtoC (/ 2) * axial_current q2 mB mV F (p_q q2 mB mV) H0 * ((wc Wp - wc Wpp) / RtoC (mqh + mql)%R + RtoC ((m1 + m2) / q2)%R * (wc Wa - wc Wap))))%C /\
  aS H = (pre * (RtoC (/ 2) * axial_current q2 mB mV F (p_q q2 mB mV) H0 * ((wc Ws - wc Wsp) / RtoC (mqh + mql)%R + RtoC ((m1 - m2) / q2)%R * (wc Wv - wc Wvp))))%C.
Proof.
  intros Hq HB HV HVB HT HF Hm H. unfold H. refine (conj _ (conj _ _)); [| now apply amp_P | now apply amp_S].
  intros l. destruct l; refine (conj _ (conj _ (conj _ _))).
  - now apply amp_V0. - now apply amp_A0. - now apply amp_T0. - now apply amp_Tt0.
  - now apply amp_Vpl. - now apply amp_Apl. - now apply amp_Tpl. - now apply amp_Ttpl.
  - now apply amp_Vmi. - now apply amp_Ami. - now apply amp_Tmi. - now apply amp_Ttmi.
Qed.
(** the polarisation vectors and momenta of the specification are the physical ones: mass shells, momentum conservation,
    transversality *)
Theorem C121_frame (q2 mB mM : R) : 0 < q2 -> 0 < mB -> 0 < mM -> 0 <= triangle (mB ^ 2) (mM ^ 2) q2 ->
  p_B mB = add4 (p_M q2 mB mM) (p_q q2 mB mM) /\ dot (p_B mB) (p_B mB) = RtoC (mB ^ 2)%R /\ dot (p_M q2 mB mM) (p_M q2 mB mM) = RtoC (mM ^ 2)%R /\
  dot (p_q q2 mB mM) (p_q q2 mB mM) = RtoC q2 /\ (forall l, dot (pol_q q2 mB mM l) (p_q q2 mB mM) = RtoC 0) /\ (forall l, dot (pol_M q2 mB mM l) (p_M q2 mB mM) = RtoC 0).
Proof.
  intros Hq HB HM HT. pose proof (r_sq q2 mB mM HT) as R. set (r := sqrt _) in R.
  assert (U : forall a b c d, dot (real4 a 0 0 b) (real4 c 0 0 d) = RtoC (a * c - b * d)) by (intros; unfold dot, real4; cbn [e0 e1 e2 e3]; apply C_ext; unfold Cminus, Cplus, Copp, Cmult, RtoC; cbn [fst snd]; ring).
  refine (conj _ (conj _ (conj _ (conj _ (conj _ _))))).
  - unfold add4, p_B, p_M, p_q, real4. cbn [e0 e1 e2 e3]. f_equal; rewrite <- RtoC_plus; f_equal; field; lra.
  - unfold p_B. rewrite U. f_equal. ring.
  - unfold p_M. rewrite U. f_equal. unfold momentum. fold r. apply Rmult_eq_reg_r with (4 * mB ^ 2); [| pose proof (pow_lt mB 2 HB); lra].
    transitivity ((mB ^ 2 + mM ^ 2 - q2) ^ 2 - r * r); [field; lra |]. rewrite R. unfold triangle. ring.
  - now apply dqq.
  - apply epq.
  - intros [ | | ]; [unfold p_M, pol_M; rewrite U; f_equal; unfold momentum; field; lra | |]; unfold dot, pol_M, p_M, real4; cbn [e0 e1 e2 e3]; ring.
Qed.
Theorem C121_pseudoscalar (q2 mB mP mqh mql m1 m2 : R) (ff : ffkey -> R) (wc : wckey -> C) (pre : C) :
  0 < q2 -> 0 < mB -> 0 < mP -> 0 <= triangle (mB ^ 2) (mP ^ 2) q2 -> mqh - mql <> 0 ->
  let h := helicity_amps_p q2 mB mP mqh mql m1 m2 ff wc pre in let eps := neg4 (pol_q q2 mB mP H0) in let q := p_q q2 mB mP in
  pV h = (pre * (RtoC (/ 2) * (wc Wv + wc Wvp) * vector_current_p q2 mB mP (ff Fplus) (ff Fzero) eps
      + RtoC (mqh / q2)%R * (wc W7 + wc W7p) * dipole_current_p q2 mB mP (ff Ftens) eps))%C /\
  pA h = (pre * (RtoC (/ 2) * (wc Wa + wc Wap) * vector_current_p q2 mB mP (ff Fplus) (ff Fzero) eps))%C /\
  pS h = (pre * (RtoC (/ 2) * vector_current_p q2 mB mP (ff Fplus) (ff Fzero) q * ((wc Ws + wc Wsp) / RtoC (mqh - mql)%R + RtoC ((m1 - m2) / q2)%R * (wc Wv + wc Wvp))))%C /\
  pP h = (pre * (RtoC (/ 2) * vector_current_p q2 mB mP (ff Fplus) (ff Fzero) q * ((wc Wp + wc Wpp) / RtoC (mqh - mql)%R + RtoC ((m1 + m2) / q2)%R * (wc Wa + wc Wap))))%C /\
  pTt h = (pre * (- Ci * RtoC (/ (2 * sqrt q2))%R * (wc Wt + wc Wtp) * dipole_current_p q2 mB mP (ff Ftens) eps))%C.
Proof.
  intros Hq HB HP HT Hm h eps q. unfold h, eps, q. refine (conj _ (conj _ (conj _ (conj _ _)))); [now apply amp_pV | now apply amp_pA | now apply amp_pS | now apply amp_pP | now apply amp_pTt].
Qed.
(** any form factors in the basis of the code are those of the traditional basis for suitable A2 and T3 *)
Theorem C121_basis (q2 mB mV : R) (ff : ffkey -> R) : 0 < mV -> mV < mB -> triangle (mB ^ 2) (mV ^ 2) q2 <> 0 -> exists F, same_form_factors q2 mB mV ff F.
Proof.
  intros HV HB HT. set (t := triangle (mB ^ 2) (mV ^ 2) q2) in *.
  exists {| f_V := ff FV; f_A0 := ff FA0; f_A1 := ff FA1;
    f_A2 := ((mB + mV) ^ 2 * (mB ^ 2 - mV ^ 2 - q2) * ff FA1 - 16 * mB * mV ^ 2 * (mB + mV) * ff FA12) / t;
    f_T1 := ff FT1; f_T2 := ff FT2; f_T3 := ((mB ^ 2 - mV ^ 2) * (mB ^ 2 + 3 * mV ^ 2 - q2) * ff FT2 - 8 * mB * mV ^ 2 * (mB - mV) * ff FT23) / t |}.
  unfold same_form_factors. cbn [f_V f_A0 f_A1 f_A2 f_T1 f_T2 f_T3]. fold t. refine (conj eq_refl (conj eq_refl (conj eq_refl (conj _ (conj eq_refl (conj eq_refl _)))))); field; repeat split; lra.
Qed.
Example C121_met : 0 < 1 /\ 0 < 5 /\ 0 < 2 /\ 2 < 5 /\ 0 <= triangle (5 ^ 2) (2 ^ 2) 1 /\ triangle (5 ^ 2) (2 ^ 2) 1 <> 0.
Proof. unfold triangle. lra. Qed.

(** ** C122: the neutrino is left-handed *)
Theorem C122_charged_current (q2 mB mV mqh mql ml : R) ff pre c_sm CVL CVR CSR CSL CT : 0 < q2 -> 0 < mB -> 0 < mV ->
  no_wrong_helicity q2 ml (helicity_amps_v q2 mB mV mqh mql ml 0 ff (get_wceff_fccc c_sm CVL CVR CSR CSL CT) pre).
Proof. intros Hq HB HV. apply chirality_V; [exact Hq | exact HB | exact HV | apply fccc_left]. Qed.
Theorem C122_neutral_current (q2 mB mV mP mqh mql : R) ff pre CL CR : 0 < q2 -> 0 < mB -> 0 < mV ->
  no_wrong_helicity q2 0 (helicity_amps_v q2 mB mV mqh mql 0 0 ff (get_wceff_nunu CL CR) pre) /\
  no_wrong_helicity_p q2 0 (helicity_amps_p q2 mB mP mqh mql 0 0 ff (get_wceff_nunu CL CR) pre).
Proof. intros Hq HB HV. split; [apply chirality_V; [exact Hq | exact HB | exact HV | apply nunu_left] | apply chirality_P; [exact Hq | apply nunu_left | reflexivity]]. Qed.
Theorem C122_pseudoscalar (q2 mB mP mqh mql ml : R) ff pre c_sm CVL CVR CSR CSL : 0 < q2 ->
  no_wrong_helicity_p q2 ml (helicity_amps_p q2 mB mP mqh mql ml 0 ff (get_wceff_fccc c_sm CVL CVR CSR CSL (RtoC 0)) pre).
Proof. intros Hq. apply chirality_P; [exact Hq | apply fccc_left | reflexivity]. Qed.
(** the right helicity does occur: the statements above are not about vanishing amplitudes *)
Example C122_met : flip 1 0 0 (helicity_amps_v 1 5 2 4 0 0 0 (fun _ => 1) (get_wceff_fccc (RtoC 1) (RtoC 0) (RtoC 0) (RtoC 0) (RtoC 0) (RtoC 0)) (RtoC 1)) 1 H0 <> RtoC 0.
Proof.
  intros E. destruct (neutrino_spinors 1 0) as (z2 & z3). unfold flip in E. rewrite z2, z3 in E. unfold helicity_amps_v in E. cbv zeta in E. cbn [aV aA aT aTt] in E. unfold get_wceff_fccc in E.
  assert (V : vT 1 0 0 = 1).
  { unfold vT, u1, u2, w1, w2, energy. rewrite sqrt_1. replace ((1 + 0 ^ 2 - 0 ^ 2) / (2 * 1) + 0) with (/ 2) by field. replace ((1 + 0 ^ 2 - 0 ^ 2) / (2 * 1) - 0) with (/ 2) by field. rewrite sqrt_sqrt by lra. lra. }
  rewrite V, sqrt_1 in E. replace (vL 1 0 0) with 0 in E. 2: { unfold vL, u1, u2, w1, w2. rewrite (Rplus_0_r), (Rminus_0_r). ring. }
  rewrite !(Cdiv_real _ 2) in E by lra. rewrite (Cdiv_real _ (1 * (5 + 2))) in E by lra. rewrite (Cdiv_real _ 1) in E by lra.
  assert (F : (Ci * (RtoC 4 * RtoC 5 * RtoC 2 * RtoC (/ 2) * (RtoC (/ (1 * (5 + 2))) * RtoC (5 + 2) + RtoC (/ 1))))%C = RtoC 0) by (rewrite <- E; ring).
  apply (f_equal snd) in F. repeat first [rewrite <- RtoC_mult in F | rewrite <- RtoC_plus in F]. unfold Ci, Cmult, RtoC in F. cbn [fst snd] in F. lra.
Qed.
(** B -> P l nu with a tensor coefficient: antineutrinos of the wrong helicity are produced *)
Theorem C123_tensor_refuted (q2 mB mP mqh mql ml : R) ff pre c_sm CVL CVR CSR CSL CT : 0 <= ml -> ml ^ 2 < q2 -> 0 < mB -> 0 < mP -> 0 < triangle (mB ^ 2) (mP ^ 2) q2 ->
  ff Ftens <> 0 -> pre <> RtoC 0 -> CT <> RtoC 0 -> ~ no_wrong_helicity_p q2 ml (helicity_amps_p q2 mB mP mqh mql ml 0 ff (get_wceff_fccc c_sm CVL CVR CSR CSL CT) pre).
Proof.
  intros Hl Hq HB HP HT Hf Hp Hc (_ & E & _). rewrite wrong_helicity_P in E by apply fccc_left. assert (Q : 0 < q2) by (pose proof (pow2_ge_0 ml); lra).
  pose proof (sqrt_lt_R0 q2 Q) as SQ.
  assert (V : 0 < vT q2 ml 0).
  { unfold vT. apply Rplus_lt_le_0_compat; [| apply Rmult_le_pos; apply sqrt_pos]. unfold u1, u2, energy.
    assert (D : 0 < / (2 * sqrt q2)) by (apply Rinv_0_lt_compat; lra).
    apply Rmult_lt_0_compat; apply sqrt_lt_R0; unfold Rdiv; [assert (0 < (q2 + ml ^ 2 - 0 ^ 2) * / (2 * sqrt q2)) by (apply Rmult_lt_0_compat; [pose proof (pow2_ge_0 ml); lra | exact D]); lra |].
    assert (0 < (q2 + 0 ^ 2 - ml ^ 2) * / (2 * sqrt q2)) by (apply Rmult_lt_0_compat; [lra | exact D]). lra. }
  assert (T : sqrt 2 < 2). { rewrite <- (sqrt_square 2) at 2 by lra. apply sqrt_lt_1; lra. }
  unfold helicity_amps_p in E. cbv zeta in E. cbn [pTt] in E. unfold get_wceff_fccc in E. rewrite sqrt_lambda in E. pose proof (sqrt_lt_R0 _ HT) as SR. set (r := sqrt (triangle _ _ _)) in *.
  rewrite Cplus_0_l in E. unfold Cdiv in E.
  assert (NZ : forall x : R, x <> 0 -> RtoC x <> RtoC 0) by (intros x X Y; apply X; now injection Y).
  assert (NI : Ci <> RtoC 0) by (intros Y; apply (f_equal snd) in Y; unfold Ci, RtoC in Y; cbn [snd] in Y; lra).
  assert (NI' : (- Ci)%C <> RtoC 0) by (intros Y; apply (f_equal snd) in Y; unfold Ci, RtoC, Copp in Y; cbn [snd] in Y; lra).
  assert (NN : (/ RtoC (2 * (mB + mP)))%C <> RtoC 0) by (rewrite <- RtoC_inv by lra; apply NZ, Rinv_neq_0_compat; lra).
  revert E. apply Cmult_neq_0; [apply NZ, Rgt_not_eq; apply Rmult_lt_0_compat; lra |]. apply Cmult_neq_0; [exact NI |]. apply Cmult_neq_0; [exact Hp |].
  repeat apply Cmult_neq_0; try assumption; apply NZ; try assumption; lra.
Qed.
(** reason: the amplitude of the tensor current is smaller than that of B -> V by the square root of two, for the same current *)
Theorem C123_tensor_value (q2 mB mP mqh mql m1 m2 : R) ff wc pre : 0 < q2 -> 0 < mB -> 0 < mP ->
  pT (helicity_amps_p q2 mB mP mqh mql m1 m2 ff wc pre) = (pre * (- Ci * RtoC (/ (2 * sqrt q2))%R * (wc Wt - wc Wtp) * dipole_current_p q2 mB mP (ff Ftens) (neg4 (pol_q q2 mB mP H0))))%C.
Proof. intros Hq HB HP. now apply amp_pT. Qed.
Print Assumptions C121_vector.
Print Assumptions C121_pseudoscalar.
Print Assumptions C122_charged_current.
Print Assumptions C123_tensor_refuted.
