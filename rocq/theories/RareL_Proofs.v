(** * Proofs for B decays to leptons of different flavour *)
From Coq Require Import Reals Lra Psatz.
From Coquelicot Require Import Coquelicot.
From Verif Require Import Base Basics_Model Basics_Proofs Angular_Model Angular_Spec Decays_Model Decays_Proofs Rare_Model Rare_Spec Rare_Proofs RareL_Spec.
Local Open Scope R_scope.

Section Leptons.
  Variables (q2 m1 m2 : R).
  Hypotheses (Q : 0 < q2) (p1 : 0 <= m1) (p2 : 0 <= m2) (ph : (m1 + m2) ^ 2 <= q2).
  Let T := (q2 - (m1 + m2) ^ 2) * (q2 - (m1 - m2) ^ 2).
  Lemma T_pos : 0 <= T.
  Proof using p1 p2 ph. unfold T. apply Rmult_le_pos; nra. Qed.
  Lemma laGa_is : lambda_K q2 (m1 ^ 2) (m2 ^ 2) = T.
  Proof using p1 p2 ph. pose proof T_pos as P. unfold lambda_K. destruct (Rlt_dec _ 0) as [l | l]; unfold T in *; [exfalso; nra | ring]. Qed.
  Lemma E_is (x : R) (a b : R) : 0 <= x -> x = a / b -> 0 <= a -> 0 < b -> sqrt (x ^ 2) = a / b.
  Proof. intros X E A B. rewrite sqrt_pow2 by exact X. exact E. Qed.
  Lemma E1_is : sqrt (m1 ^ 2 + T / (4 * q2)) = (q2 + m1 ^ 2 - m2 ^ 2) / (2 * sqrt q2).
  Proof using Q p1 p2 ph.
    assert (s : 0 < sqrt q2) by now apply sqrt_lt_R0. assert (S2 : sqrt q2 * sqrt q2 = q2) by (apply sqrt_sqrt; lra).
    apply sqrt_lem_1.
    - pose proof T_pos. apply Rplus_le_le_0_compat; [apply pow2_ge_0 |]. apply Rmult_le_pos; [assumption |]. apply Rlt_le, Rinv_0_lt_compat. lra.
    - apply Rmult_le_pos; [nra |]. apply Rlt_le, Rinv_0_lt_compat. lra.
    - replace ((q2 + m1 ^ 2 - m2 ^ 2) / (2 * sqrt q2) * ((q2 + m1 ^ 2 - m2 ^ 2) / (2 * sqrt q2))) with ((q2 + m1 ^ 2 - m2 ^ 2) ^ 2 / (4 * (sqrt q2 * sqrt q2))) by (field; lra).
      rewrite S2. unfold T. field. lra.
  Qed.
  Lemma E2_is : sqrt (m2 ^ 2 + T / (4 * q2)) = (q2 + m2 ^ 2 - m1 ^ 2) / (2 * sqrt q2).
  Proof using Q p1 p2 ph.
    assert (s : 0 < sqrt q2) by now apply sqrt_lt_R0. assert (S2 : sqrt q2 * sqrt q2 = q2) by (apply sqrt_sqrt; lra).
    apply sqrt_lem_1.
    - pose proof T_pos. apply Rplus_le_le_0_compat; [apply pow2_ge_0 |]. apply Rmult_le_pos; [assumption |]. apply Rlt_le, Rinv_0_lt_compat. lra.
    - apply Rmult_le_pos; [nra |]. apply Rlt_le, Rinv_0_lt_compat. lra.
    - replace ((q2 + m2 ^ 2 - m1 ^ 2) / (2 * sqrt q2) * ((q2 + m2 ^ 2 - m1 ^ 2) / (2 * sqrt q2))) with ((q2 + m2 ^ 2 - m1 ^ 2) ^ 2 / (4 * (sqrt q2 * sqrt q2))) by (field; lra).
      rewrite S2. unfold T. field. lra.
  Qed.
  Lemma EE_is : sqrt (m1 ^ 2 + T / (4 * q2)) * sqrt (m2 ^ 2 + T / (4 * q2)) = (q2 ^ 2 - (m1 ^ 2 - m2 ^ 2) ^ 2) / (4 * q2).
  Proof using Q p1 p2 ph.
    assert (s : 0 < sqrt q2) by now apply sqrt_lt_R0. assert (S2 : sqrt q2 * sqrt q2 = q2) by (apply sqrt_sqrt; lra).
    rewrite E1_is, E2_is. replace ((q2 + m1 ^ 2 - m2 ^ 2) / (2 * sqrt q2) * ((q2 + m2 ^ 2 - m1 ^ 2) / (2 * sqrt q2))) with ((q2 + m1 ^ 2 - m2 ^ 2) * (q2 + m2 ^ 2 - m1 ^ 2) / (4 * (sqrt q2 * sqrt q2))) by (field; lra).
    rewrite S2. field. lra.
  Qed.
  Let LV := 2 / (3 * q2) * (q2 - (m1 - m2) ^ 2) * (2 * q2 + (m1 + m2) ^ 2).
  Let LA := 2 / (3 * q2) * (q2 - (m1 + m2) ^ 2) * (2 * q2 + (m1 - m2) ^ 2).
  Let LS := 2 * (q2 - (m1 + m2) ^ 2).
  Let LP := 2 * (q2 - (m1 - m2) ^ 2).
  Lemma PG_massive (h : pamps) (mB mP : R) : 0 < mB -> pT h = RtoC 0 -> pTt h = RtoC 0 ->
    P_dGdq2 (angularcoeffs_general_p h q2 mB mP m1 m2) = sqrt (lambda_K (mB ^ 2) (mP ^ 2) q2) * sqrt T / (256 * PI ^ 3 * mB ^ 3 * q2) *
      (LV * Cmod (pV h) ^ 2 + LA * Cmod (pA h) ^ 2 + LS * Cmod (pS h) ^ 2 + LP * Cmod (pP h) ^ 2).
  Proof using Q p1 p2 ph.
    intros B t tt. pose proof PI_RGT_0 as P.
    unfold P_dGdq2, angularcoeffs_general_p, angularcoeffs_general_Gbasis_p. cbv zeta. cbn [Ja Jc Gp0 Gp1 Gp2].
    rewrite !laGa_is. unfold phase_space. rewrite !t, !tt, !Cmod_0.
    assert (Z : forall z : C, snd (z * Cconj (RtoC 0))%C = 0) by (intros [x y]; cbn; ring). rewrite !Z, !EE_is.
    set (a := Cmod (pV h) ^ 2). set (b := Cmod (pA h) ^ 2). set (c := Cmod (pS h) ^ 2). set (e := Cmod (pP h) ^ 2). set (la := sqrt (lambda_K (mB ^ 2) (mP ^ 2) q2)). set (st := sqrt T).
    unfold LV, LA, LS, LP, T. field; repeat split; lra.
  Qed.
  Lemma dG_massive (H : amps) (mB mV : R) : 0 < mB -> (forall l, aT H l = RtoC 0) -> (forall l, aTt H l = RtoC 0) ->
    dGdq2 (angularcoeffs_general_v H q2 mB mV m1 m2) = sqrt (lambda_K (mB ^ 2) (mV ^ 2) q2) * sqrt T / (256 * PI ^ 3 * mB ^ 3 * q2) *
      (LV * (Cmod (aV H Hpl) ^ 2 + Cmod (aV H Hmi) ^ 2 + Cmod (aV H H0) ^ 2) + LA * (Cmod (aA H Hpl) ^ 2 + Cmod (aA H Hmi) ^ 2 + Cmod (aA H H0) ^ 2) + LS * Cmod (aS H) ^ 2 + LP * Cmod (aP H) ^ 2).
  Proof using Q p1 p2 ph.
    intros B t tt. pose proof PI_RGT_0 as P.
    unfold dGdq2, angularcoeffs_general_v, J_of_g, G_to_g, angularcoeffs_general_Gbasis_v, gscale. cbn [signflip G000 G010 G020 G200 G210 G220]. cbv zeta.
    rewrite !laGa_is. unfold phase_space. rewrite !t, !tt, !Cmod_0.
    assert (Z : forall z : C, (z * Cconj (RtoC 0))%C = RtoC 0) by (intros [x y]; apply injective_projections; cbn; ring). rewrite !Z, ?Cmult_0_r, ?Cplus_0_r. unfold Cminus. rewrite ?Copp_0, ?Cplus_0_r.
    assert (z1 : snd (RtoC 0) = 0) by reflexivity. assert (z2 : fst (RtoC 0) = 0) by reflexivity. rewrite ?z1, ?z2.
    assert (E : forall c, c * sqrt (m1 ^ 2 + T / (4 * q2)) * sqrt (m2 ^ 2 + T / (4 * q2)) = c * ((q2 ^ 2 - (m1 ^ 2 - m2 ^ 2) ^ 2) / (4 * q2))). { intros c. rewrite Rmult_assoc, EE_is. reflexivity. }
    rewrite !E, !EE_is.
    set (a := Cmod (aV H Hpl) ^ 2). set (b := Cmod (aV H Hmi) ^ 2). set (c := Cmod (aV H H0) ^ 2).
    set (a' := Cmod (aA H Hpl) ^ 2). set (b' := Cmod (aA H Hmi) ^ 2). set (c' := Cmod (aA H H0) ^ 2). set (s := Cmod (aS H) ^ 2). set (p := Cmod (aP H) ^ 2).
    set (la := sqrt (lambda_K (mB ^ 2) (mV ^ 2) q2)). set (st := sqrt T). unfold LV, LA, LS, LP, T. field; repeat split; lra.
  Qed.
End Leptons.

Section Rates.
  Variable d : lfvdecay.
  Hypothesis ok : lfv_ok d.
  Variables l1 l2 : lep3.
  Let N := lfv_prefactor d.
  Let w := f_wc d l1 l2.
  Lemma N_is : Cmod N ^ 2 = (f_GF d * f_alpha d / (sqrt 2 * PI)) ^ 2 * Cmod (f_xit d) ^ 2.
  Proof using.
    clear. unfold N, lfv_prefactor. pose proof PI_RGT_0 as P. assert (s2 : 0 < sqrt 2) by (apply sqrt_lt_R0; lra).
    replace (RtoC (4 * f_GF d / sqrt 2) * f_xit d * RtoC (f_alpha d) / RtoC (4 * PI))%C with (RtoC (4 * f_GF d / sqrt 2 * f_alpha d / (4 * PI)) * f_xit d)%C.
    - rewrite sq_scale. f_equal. f_equal. field. lra.
    - unfold Cdiv. rewrite <- RtoC_inv by lra. unfold Rdiv. rewrite !RtoC_mult. ring.
  Qed.
  Let hp q2 := helicity_amps_p q2 (f_mB d) (f_mM d) (f_mb d) 0 (f_ml d l1) (f_ml d l2) (f_ff d q2) (get_wceff_lfv (f_mb d) w) N.
  Let hv q2 := helicity_amps_v q2 (f_mB d) (f_mM d) (f_mb d) 0 (f_ml d l1) (f_ml d l2) (f_ff d q2) (get_wceff_lfv (f_mb d) w) N.
  Lemma div_mb (x y : C) : ((RtoC (f_mb d) * x + RtoC (f_mb d) * y) / RtoC (f_mb d - 0) = x + y)%C /\ ((RtoC (f_mb d) * x - RtoC (f_mb d) * y) / RtoC (f_mb d + 0) = x - y)%C.
  Proof using ok.
    destruct ok as (_ & _ & b & _). rewrite Rminus_0_r, Rplus_0_r. assert (n : RtoC (f_mb d) <> RtoC 0) by (intros E; apply RtoC_inj in E; lra).
    split; field; exact n.
  Qed.
  Lemma rate_P_is (q2 : R) : 0 < q2 -> thr d l1 l2 <= q2 <= top d -> P_dGdq2 (angularcoeffs_general_p (hp q2) q2 (f_mB d) (f_mM d) (f_ml d l1) (f_ml d l2)) = lfv_P d l1 l2 q2.
  Proof using ok.
    intros Q (L & U). pose proof ok as (B & M & b & ml & _). pose proof (ml l1) as a1. pose proof (ml l2) as a2. pose proof PI_RGT_0 as P.
    destruct (lambda_in (f_mB d) (f_mM d) q2 B M U) as (La & Lp). unfold thr in L.
    assert (sl : sqrt (momentum (f_mB d) (f_mM d) q2) ^ 2 = momentum (f_mB d) (f_mM d) q2) by (rewrite <- Rsqr_pow2; now apply Rsqr_sqrt).
    assert (sq : 0 < sqrt q2) by now apply sqrt_lt_R0. assert (S2 : sqrt q2 ^ 2 = q2) by (rewrite <- Rsqr_pow2; apply Rsqr_sqrt; lra).
    rewrite PG_massive; try lra.
    2, 3: unfold hp, helicity_amps_p; cbv zeta; cbn [pT pTt get_wceff_lfv]; ring.
    assert (V : Cmod (pV (hp q2)) ^ 2 = Cmod N ^ 2 * (momentum (f_mB d) (f_mM d) q2 / (4 * q2) * f_ff d q2 Fplus ^ 2) * Cmod (w9 w + w9p w)%C ^ 2).
    { unfold hp, helicity_amps_p. cbv zeta. cbn [pV get_wceff_lfv]. rewrite La.
      match goal with |- Cmod (N * ?p)%C ^ 2 = _ => replace p with (RtoC (sqrt (momentum (f_mB d) (f_mM d) q2) / (2 * sqrt q2) * f_ff d q2 Fplus) * (w9 w + w9p w))%C by (rewrite RtoC_mult; ring) end.
      rewrite sq_r. replace ((sqrt (momentum (f_mB d) (f_mM d) q2) / (2 * sqrt q2) * f_ff d q2 Fplus) ^ 2) with (sqrt (momentum (f_mB d) (f_mM d) q2) ^ 2 / (4 * sqrt q2 ^ 2) * f_ff d q2 Fplus ^ 2) by (field; lra).
      rewrite sl, S2. reflexivity. }
    assert (A : Cmod (pA (hp q2)) ^ 2 = Cmod N ^ 2 * (momentum (f_mB d) (f_mM d) q2 / (4 * q2) * f_ff d q2 Fplus ^ 2) * Cmod (w10 w + w10p w)%C ^ 2).
    { unfold hp, helicity_amps_p. cbv zeta. cbn [pA get_wceff_lfv]. rewrite La.
      match goal with |- Cmod (N * ?p)%C ^ 2 = _ => replace p with (RtoC (sqrt (momentum (f_mB d) (f_mM d) q2) / (2 * sqrt q2) * f_ff d q2 Fplus) * (w10 w + w10p w))%C by (rewrite RtoC_mult; ring) end.
      rewrite sq_r. replace ((sqrt (momentum (f_mB d) (f_mM d) q2) / (2 * sqrt q2) * f_ff d q2 Fplus) ^ 2) with (sqrt (momentum (f_mB d) (f_mM d) q2) ^ 2 / (4 * sqrt q2 ^ 2) * f_ff d q2 Fplus ^ 2) by (field; lra).
      rewrite sl, S2. reflexivity. }
    assert (S : Cmod (pS (hp q2)) ^ 2 = Cmod N ^ 2 * (((f_mB d ^ 2 - f_mM d ^ 2) / 2) ^ 2 * f_ff d q2 Fzero ^ 2) * Cmod (wS w + wSp w + RtoC ((f_ml d l1 - f_ml d l2) / q2) * (w9 w + w9p w))%C ^ 2).
    { unfold hp, helicity_amps_p. cbv zeta. cbn [pS get_wceff_lfv]. rewrite (proj1 (div_mb _ _)), sq_r. ring. }
    assert (P' : Cmod (pP (hp q2)) ^ 2 = Cmod N ^ 2 * (((f_mB d ^ 2 - f_mM d ^ 2) / 2) ^ 2 * f_ff d q2 Fzero ^ 2) * Cmod (wP w + wPp w + RtoC ((f_ml d l1 + f_ml d l2) / q2) * (w10 w + w10p w))%C ^ 2).
    { unfold hp, helicity_amps_p. cbv zeta. cbn [pP get_wceff_lfv]. rewrite (proj1 (div_mb _ _)), sq_r. ring. }
    rewrite V, A, S, P', La. unfold lfv_P. cbv zeta. fold w. unfold lfv_norm, lept_V, lept_A, lept_S, lept_P, lepton_phase. rewrite N_is. unfold Rdiv. ring.
  Qed.
  Lemma rate_V_is (q2 : R) : 0 < q2 -> thr d l1 l2 <= q2 <= top d -> dGdq2 (angularcoeffs_general_v (hv q2) q2 (f_mB d) (f_mM d) (f_ml d l1) (f_ml d l2)) = lfv_V d l1 l2 q2.
  Proof using ok.
    intros Q (L & U). pose proof ok as (B & M & b & ml & _). pose proof (ml l1) as a1. pose proof (ml l2) as a2. pose proof PI_RGT_0 as P.
    destruct (lambda_in (f_mB d) (f_mM d) q2 B M U) as (La & Lp). unfold thr in L.
    set (mo := momentum (f_mB d) (f_mM d) q2) in *.
    assert (sl : sqrt mo ^ 2 = mo) by (rewrite <- Rsqr_pow2; now apply Rsqr_sqrt).
    assert (sq : 0 < sqrt q2) by now apply sqrt_lt_R0. assert (S2 : sqrt q2 ^ 2 = q2) by (rewrite <- Rsqr_pow2; apply Rsqr_sqrt; lra).
    set (m := f_mB d + f_mM d). assert (m0 : 0 < m) by (unfold m; lra).
    assert (PM : forall x y : C, let X := (RtoC (sqrt mo * f_ff d q2 FV) * (x + y))%C in let Y := (RtoC (m ^ 2 * f_ff d q2 FA1) * (x - y))%C in
      Cmod (N * (Ci * RtoC (/ (2 * m)) * (X - Y)))%C ^ 2 + Cmod (N * (Ci * RtoC (/ (2 * m)) * (- X - Y)))%C ^ 2 = Cmod N ^ 2 * (mo / (2 * m ^ 2) * f_ff d q2 FV ^ 2 * Cmod (x + y)%C ^ 2 + m ^ 2 / 2 * f_ff d q2 FA1 ^ 2 * Cmod (x - y)%C ^ 2)).
    { intros x y X Y. rewrite !sq_i, <- Rmult_plus_distr_l, parallelogram. unfold X, Y. rewrite !sq_scale. replace ((sqrt mo * f_ff d q2 FV) ^ 2) with (sqrt mo ^ 2 * f_ff d q2 FV ^ 2) by ring. rewrite sl. field. lra. }
    assert (G : forall z : C, (Ci / RtoC (2 * m) * z)%C = (Ci * RtoC (/ (2 * m)) * z)%C). { intros z. unfold Cdiv. rewrite <- RtoC_inv by lra. ring. }
    rewrite dG_massive; try lra.
    2, 3: intros [| |]; unfold hv, helicity_amps_v; cbv zeta; cbn [aT aTt get_wceff_lfv]; ring.
    assert (VP : Cmod (aV (hv q2) Hpl) ^ 2 + Cmod (aV (hv q2) Hmi) ^ 2 = Cmod N ^ 2 * (mo / (2 * m ^ 2) * f_ff d q2 FV ^ 2 * Cmod (w9 w + w9p w)%C ^ 2 + m ^ 2 / 2 * f_ff d q2 FA1 ^ 2 * Cmod (w9 w - w9p w)%C ^ 2)).
    { rewrite <- PM. unfold hv, helicity_amps_v. cbv zeta. cbn [aV get_wceff_lfv]. rewrite La. fold m. fold mo. f_equal; f_equal; f_equal; f_equal; rewrite <- !G, !RtoC_mult; ring. }
    assert (AP : Cmod (aA (hv q2) Hpl) ^ 2 + Cmod (aA (hv q2) Hmi) ^ 2 = Cmod N ^ 2 * (mo / (2 * m ^ 2) * f_ff d q2 FV ^ 2 * Cmod (w10 w + w10p w)%C ^ 2 + m ^ 2 / 2 * f_ff d q2 FA1 ^ 2 * Cmod (w10 w - w10p w)%C ^ 2)).
    { rewrite <- PM. unfold hv, helicity_amps_v. cbv zeta. cbn [aA get_wceff_lfv]. rewrite La. fold m. fold mo. f_equal; f_equal; f_equal; f_equal; rewrite <- !G, !RtoC_mult; ring. }
    assert (Z : forall x : C, (RtoC 4 * Ci * RtoC (f_mB d) * RtoC (f_mM d) / RtoC (sqrt q2) * x * RtoC (f_ff d q2 FA12))%C = (Ci * RtoC (4 * f_mB d * f_mM d / sqrt q2 * f_ff d q2 FA12) * x)%C).
    { intros x. unfold Cdiv. rewrite <- RtoC_inv by lra. unfold Rdiv. rewrite !RtoC_mult. ring. }
    assert (Zq : forall x : C, Cmod (N * (Ci * RtoC (4 * f_mB d * f_mM d / sqrt q2 * f_ff d q2 FA12) * x))%C ^ 2 = Cmod N ^ 2 * (16 * f_mB d ^ 2 * f_mM d ^ 2 / q2 * f_ff d q2 FA12 ^ 2) * Cmod x ^ 2).
    { intros x. rewrite sq_i. f_equal. f_equal. replace ((4 * f_mB d * f_mM d / sqrt q2 * f_ff d q2 FA12) ^ 2) with (16 * f_mB d ^ 2 * f_mM d ^ 2 / sqrt q2 ^ 2 * f_ff d q2 FA12 ^ 2) by (field; lra). rewrite S2. reflexivity. }
    assert (V0 : Cmod (aV (hv q2) H0) ^ 2 = Cmod N ^ 2 * (16 * f_mB d ^ 2 * f_mM d ^ 2 / q2 * f_ff d q2 FA12 ^ 2) * Cmod (w9 w - w9p w)%C ^ 2).
    { rewrite <- Zq, <- Z. unfold hv, helicity_amps_v. cbv zeta. cbn [aV get_wceff_lfv]. f_equal. f_equal. f_equal. fold m.
      replace (RtoC (sqrt q2 * m)) with (RtoC (sqrt q2) * RtoC m)%C by (now rewrite RtoC_mult).
      assert (n1 : RtoC (sqrt q2) <> RtoC 0) by (intros E; apply RtoC_inj in E; lra). assert (n2 : RtoC m <> RtoC 0) by (intros E; apply RtoC_inj in E; lra). field. split; assumption. }
    assert (A0 : Cmod (aA (hv q2) H0) ^ 2 = Cmod N ^ 2 * (16 * f_mB d ^ 2 * f_mM d ^ 2 / q2 * f_ff d q2 FA12 ^ 2) * Cmod (w10 w - w10p w)%C ^ 2).
    { rewrite <- Zq, <- Z. unfold hv, helicity_amps_v. cbv zeta. cbn [aA get_wceff_lfv]. reflexivity. }
    assert (SQ : forall x : C, Cmod (N * (Ci * RtoC (sqrt mo) / RtoC 2 * x * RtoC (f_ff d q2 FA0)))%C ^ 2 = Cmod N ^ 2 * (mo / 4 * f_ff d q2 FA0 ^ 2) * Cmod x ^ 2).
    { intros x. replace (Ci * RtoC (sqrt mo) / RtoC 2 * x * RtoC (f_ff d q2 FA0))%C with (Ci * RtoC (sqrt mo / 2 * f_ff d q2 FA0) * x)%C.
      - rewrite sq_i. f_equal. f_equal. replace ((sqrt mo / 2 * f_ff d q2 FA0) ^ 2) with (sqrt mo ^ 2 / 4 * f_ff d q2 FA0 ^ 2) by field. rewrite sl. reflexivity.
      - unfold Cdiv. rewrite <- RtoC_inv by lra. unfold Rdiv. rewrite !RtoC_mult. ring. }
    assert (S : Cmod (aS (hv q2)) ^ 2 = Cmod N ^ 2 * (mo / 4 * f_ff d q2 FA0 ^ 2) * Cmod (wS w - wSp w + RtoC ((f_ml d l1 - f_ml d l2) / q2) * (w9 w - w9p w))%C ^ 2).
    { unfold hv, helicity_amps_v. cbv zeta. cbn [aS get_wceff_lfv]. rewrite (proj2 (div_mb _ _)), La. apply SQ. }
    assert (P' : Cmod (aP (hv q2)) ^ 2 = Cmod N ^ 2 * (mo / 4 * f_ff d q2 FA0 ^ 2) * Cmod (wP w - wPp w + RtoC ((f_ml d l1 + f_ml d l2) / q2) * (w10 w - w10p w))%C ^ 2).
    { unfold hv, helicity_amps_v. cbv zeta. cbn [aP get_wceff_lfv]. rewrite (proj2 (div_mb _ _)), La. apply SQ. }
    rewrite VP, AP, V0, A0, S, P', La. unfold lfv_V. cbv zeta. fold w. unfold lfv_norm, lept_V, lept_A, lept_S, lept_P, lepton_phase. fold mo. fold m. rewrite N_is. unfold Rdiv. ring.
  Qed.
End Rates.
