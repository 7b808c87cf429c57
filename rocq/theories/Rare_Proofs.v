(** * Proofs for rare decays: b -> q nu nu *)
From Coq Require Import Reals Lra Psatz.
From Coquelicot Require Import Coquelicot.
From Verif Require Import Base Basics_Model Basics_Proofs Angular_Model Angular_Spec Decays_Model Decays_Proofs Rare_Model Rare_Spec.
Local Open Scope R_scope.

Lemma lambda_nonneg (a b c : R) : 0 <= lambda_K a b c.
Proof. unfold lambda_K. destruct (Rlt_dec _ 0); lra. Qed.
Lemma lambda_00 (q2 : R) : lambda_K q2 (0 ^ 2) (0 ^ 2) = q2 ^ 2.
Proof. unfold lambda_K. destruct (Rlt_dec _ 0) as [l | l]; [exfalso; nra | ring]. Qed.
Lemma lambda_in (mB mM q2 : R) : 0 < mB -> 0 <= mM < mB -> q2 <= (mB - mM) ^ 2 -> lambda_K (mB ^ 2) (mM ^ 2) q2 = momentum mB mM q2 /\ 0 <= momentum mB mM q2.
Proof.
  intros B M Q. assert (P : 0 <= momentum mB mM q2). { unfold momentum. apply Rmult_le_pos; nra. }
  split; [| exact P]. unfold lambda_K. destruct (Rlt_dec _ 0) as [l | l]; unfold momentum in *; [exfalso; nra | ring].
Qed.
Lemma lambda_out (mB mM q2 : R) : 0 < mB -> 0 <= mM < mB -> (mB - mM) ^ 2 <= q2 <= (mB + mM) ^ 2 -> lambda_K (mB ^ 2) (mM ^ 2) q2 = 0.
Proof.
  intros B M Q. assert (P : momentum mB mM q2 <= 0). { unfold momentum. nra. }
  unfold lambda_K. destruct (Rlt_dec _ 0) as [l | l]; [reflexivity |]. unfold momentum in P. nra.
Qed.
Lemma E_massless (q2 : R) : 0 < q2 -> sqrt (0 ^ 2 + q2 ^ 2 / (4 * q2)) * sqrt (0 ^ 2 + q2 ^ 2 / (4 * q2)) = q2 / 4.
Proof. intros Q. replace (0 ^ 2 + q2 ^ 2 / (4 * q2)) with (q2 / 4) by (field; lra). apply sqrt_sqrt; lra. Qed.

(** the rate of massless leptons without scalar and tensor amplitudes *)
Lemma dG_massless (H : amps) (q2 mB mV : R) : 0 < q2 -> 0 < mB -> (forall l, aT H l = RtoC 0) -> (forall l, aTt H l = RtoC 0) -> aS H = RtoC 0 -> aP H = RtoC 0 ->
  dGdq2 (angularcoeffs_general_v H q2 mB mV 0 0) = 8 / 3 * (sqrt (lambda_K (mB ^ 2) (mV ^ 2) q2) / (512 * PI ^ 3 * mB ^ 3)) * q2 *
    (Cmod (aV H Hpl) ^ 2 + Cmod (aV H Hmi) ^ 2 + Cmod (aV H H0) ^ 2 + Cmod (aA H Hpl) ^ 2 + Cmod (aA H Hmi) ^ 2 + Cmod (aA H H0) ^ 2) /\
  - angularcoeffs_general_v H q2 mB mV 0 0 J2c = 8 / 3 * (sqrt (lambda_K (mB ^ 2) (mV ^ 2) q2) / (512 * PI ^ 3 * mB ^ 3)) * q2 * (Cmod (aV H H0) ^ 2 + Cmod (aA H H0) ^ 2).
Proof.
  intros Q B t tt s p. pose proof PI_RGT_0 as P.
  unfold dGdq2, angularcoeffs_general_v, J_of_g, G_to_g, angularcoeffs_general_Gbasis_v, gscale. cbn [signflip G000 G010 G020 G200 G210 G220]. cbv zeta.
  rewrite !lambda_00. unfold phase_space. rewrite sqrt_pow2 by lra. rewrite !t, !tt, !s, !p, !Cmod_0.
  assert (Z : forall z : C, snd (z * Cconj (RtoC 0))%C = 0) by (intros [x y]; cbn; ring).
  assert (E : forall c, c * sqrt (0 ^ 2 + q2 ^ 2 / (4 * q2)) * sqrt (0 ^ 2 + q2 ^ 2 / (4 * q2)) = c * (q2 / 4)). { intros c. rewrite Rmult_assoc, E_massless by exact Q. reflexivity. }
  rewrite !E, !(E_massless q2 Q).
  set (a := Cmod (aV H Hpl) ^ 2). set (b := Cmod (aV H Hmi) ^ 2). set (c := Cmod (aV H H0) ^ 2).
  set (a' := Cmod (aA H Hpl) ^ 2). set (b' := Cmod (aA H Hmi) ^ 2). set (c' := Cmod (aA H H0) ^ 2).
  set (la := sqrt (lambda_K (mB ^ 2) (mV ^ 2) q2)). split; field; repeat split; lra.
Qed.
Lemma PG_massless (h : pamps) (q2 mB mP : R) : 0 < q2 -> 0 < mB -> pT h = RtoC 0 -> pTt h = RtoC 0 -> pS h = RtoC 0 -> pP h = RtoC 0 ->
  P_dGdq2 (angularcoeffs_general_p h q2 mB mP 0 0) = 8 / 3 * (sqrt (lambda_K (mB ^ 2) (mP ^ 2) q2) / (512 * PI ^ 3 * mB ^ 3)) * q2 * (Cmod (pV h) ^ 2 + Cmod (pA h) ^ 2).
Proof.
  intros Q B t tt s p. pose proof PI_RGT_0 as P.
  unfold P_dGdq2, angularcoeffs_general_p, angularcoeffs_general_Gbasis_p. cbv zeta. cbn [Ja Jc Gp0 Gp1 Gp2].
  rewrite !lambda_00. unfold phase_space. rewrite sqrt_pow2 by lra. rewrite !t, !tt, !s, !p, !Cmod_0. rewrite !(E_massless q2 Q).
  set (a := Cmod (pV h) ^ 2). set (b := Cmod (pA h) ^ 2). set (la := sqrt (lambda_K (mB ^ 2) (mP ^ 2) q2)). field; repeat split; lra.
Qed.
(** squared amplitudes *)
Lemma sq_i (r : R) (N z : C) : Cmod (N * (Ci * RtoC r * z))%C ^ 2 = Cmod N ^ 2 * r ^ 2 * Cmod z ^ 2.
Proof. rewrite !Cmod_mult, Cmod_R. replace (Cmod Ci) with 1. 2: { unfold Cmod, Ci. cbn. replace (0 * (0 * 1) + 1 * (1 * 1)) with 1 by ring. symmetry. apply sqrt_1. }
  rewrite <- (Rsqr_pow2 r), (Rsqr_abs r), Rsqr_pow2. ring. Qed.
Lemma sq_r (r : R) (N z : C) : Cmod (N * (RtoC r * z))%C ^ 2 = Cmod N ^ 2 * r ^ 2 * Cmod z ^ 2.
Proof. rewrite !Cmod_mult, Cmod_R. rewrite <- (Rsqr_pow2 r), (Rsqr_abs r), Rsqr_pow2. ring. Qed.
Lemma parallelogram (x y : C) : Cmod (x - y)%C ^ 2 + Cmod (- x - y)%C ^ 2 = 2 * (Cmod x ^ 2 + Cmod y ^ 2).
Proof. rewrite !cmod_sq. destruct x, y. cbn [fst snd Cminus Copp Cplus]. ring. Qed.
Lemma sq_scale (r : R) (z : C) : Cmod (RtoC r * z)%C ^ 2 = r ^ 2 * Cmod z ^ 2.
Proof. rewrite Cmod_mult, Cmod_R. rewrite <- (Rsqr_pow2 r), (Rsqr_abs r), Rsqr_pow2. ring. Qed.

Section Nunu.
  Variable d : nunu.
  Hypothesis ok : nunu_ok d.
  Lemma CL_is (i j : lep3) : nunu_wceff d i j Wv = left_total d i j /\ nunu_wceff d i j Wa = (- left_total d i j)%C.
  Proof using ok.
    destruct ok as (_ & _ & A & S). unfold nunu_wceff, left_total, get_wceff_nunu. cbv zeta.
    assert (E : CL_SM (n_s2w d) (n_Xt d) (n_alpha d) (n_alphaZ d) = sm_coefficient d) by (unfold CL_SM, sm_coefficient; field; lra).
    rewrite E. destruct i, j; cbn [lep3_eqb]; split; try reflexivity; apply injective_projections; cbn; ring.
  Qed.
  Lemma pre_is : Cmod (nunu_prefactor d) ^ 2 = n_GF d ^ 2 * n_alpha d ^ 2 * Cmod (n_xit d) ^ 2 / (2 * PI ^ 2).
  Proof using ok.
    unfold nunu_prefactor. pose proof PI_RGT_0 as P. assert (s2 : 0 < sqrt 2) by (apply sqrt_lt_R0; lra).
    replace (RtoC (4 * n_GF d / sqrt 2) * n_xit d * RtoC (n_alpha d) / RtoC (4 * PI))%C with (RtoC (4 * n_GF d / sqrt 2 * n_alpha d / (4 * PI)) * n_xit d)%C.
    - rewrite sq_scale. replace ((4 * n_GF d / sqrt 2 * n_alpha d / (4 * PI)) ^ 2) with (n_GF d ^ 2 * n_alpha d ^ 2 / ((sqrt 2 * sqrt 2) * PI ^ 2)) by (field; split; lra).
      rewrite sqrt_sqrt by lra. field. lra.
    - unfold Cdiv. rewrite <- RtoC_inv by lra. unfold Rdiv. rewrite !RtoC_mult. ring.
  Qed.
  Let N := nunu_prefactor d.
  Let H q2 i j := helicity_amps_v q2 (n_mB d) (n_mM d) 4 0 0 0 (n_ff d q2) (nunu_wceff d i j) (nunu_prefactor d).
  Lemma amp_rest (q2 : R) (i j : lep3) : 0 < q2 -> (forall l, aT (H q2 i j) l = RtoC 0) /\ (forall l, aTt (H q2 i j) l = RtoC 0) /\ aS (H q2 i j) = RtoC 0 /\ aP (H q2 i j) = RtoC 0.
  Proof using ok.
    intros Q. unfold H, helicity_amps_v, nunu_wceff, get_wceff_nunu. cbv zeta. cbn [aT aTt aS aP].
    assert (Z1 : (0 + 0) / q2 = 0) by (field; lra). assert (Z2 : (0 - 0) / q2 = 0) by (field; lra). rewrite Z1, Z2.
    assert (D : ((RtoC 0 - RtoC 0) / RtoC (4 + 0) = RtoC 0)%C). { unfold Cdiv. rewrite <- RtoC_inv by lra. apply injective_projections; cbn; ring. }
    rewrite D. refine (conj _ (conj _ (conj _ _))); [intros [| |] | intros [| |] | |]; ring.
  Qed.
  Lemma amp_0 (q2 : R) (i j : lep3) : 0 < q2 ->
    Cmod (aV (H q2 i j) H0) ^ 2 = Cmod N ^ 2 * (16 * n_mB d ^ 2 * n_mM d ^ 2 / q2 * n_ff d q2 FA12 ^ 2) * Cmod (left_total d i j - n_CR d i j)%C ^ 2 /\
    Cmod (aA (H q2 i j) H0) ^ 2 = Cmod N ^ 2 * (16 * n_mB d ^ 2 * n_mM d ^ 2 / q2 * n_ff d q2 FA12 ^ 2) * Cmod (left_total d i j - n_CR d i j)%C ^ 2.
  Proof using ok.
    intros Q. destruct (CL_is i j) as (Ev & Ea). destruct ok as (B & M & _).
    assert (sq : 0 < sqrt q2) by now apply sqrt_lt_R0. assert (S2 : sqrt q2 * sqrt q2 = q2) by (apply sqrt_sqrt; lra).
    unfold H, helicity_amps_v. cbv zeta. cbn [aV aA]. rewrite Ev, Ea.
    change (nunu_wceff d i j Wvp) with (n_CR d i j). change (nunu_wceff d i j Wap) with (- n_CR d i j)%C.
    change (nunu_wceff d i j W7) with (RtoC 0). change (nunu_wceff d i j W7p) with (RtoC 0). fold N.
    set (L := left_total d i j). set (Rr := n_CR d i j).
    split.
    - replace (N * _)%C with (N * (Ci * RtoC (4 * n_mB d * n_mM d / sqrt q2 * n_ff d q2 FA12) * (L - Rr)))%C.
      + rewrite sq_i. f_equal. f_equal. replace (16 * n_mB d ^ 2 * n_mM d ^ 2 / q2) with (16 * n_mB d ^ 2 * n_mM d ^ 2 / (sqrt q2 * sqrt q2)) by (rewrite S2; reflexivity). field. lra.
      + f_equal. unfold Cdiv. rewrite <- RtoC_inv by (apply Rgt_not_eq; nra).
        replace (4 * n_mB d * n_mM d / sqrt q2 * n_ff d q2 FA12) with (4 * n_mB d * n_mM d * (/ (sqrt q2 * (n_mB d + n_mM d))) * (n_mB d + n_mM d) * n_ff d q2 FA12) by (field; lra).
        rewrite !RtoC_mult. ring.
    - replace (N * _)%C with (N * (Ci * RtoC (- (4 * n_mB d * n_mM d / sqrt q2 * n_ff d q2 FA12)) * (L - Rr)))%C.
      + rewrite sq_i. f_equal. f_equal. replace (16 * n_mB d ^ 2 * n_mM d ^ 2 / q2) with (16 * n_mB d ^ 2 * n_mM d ^ 2 / (sqrt q2 * sqrt q2)) by (rewrite S2; reflexivity). field. lra.
      + f_equal. unfold Cdiv. rewrite <- RtoC_inv by lra. unfold Rdiv. rewrite RtoC_opp, !RtoC_mult. ring.
  Qed.
  Lemma amp_pm (q2 : R) (i j : lep3) : 0 < q2 -> let la := lambda_K (n_mB d ^ 2) (n_mM d ^ 2) q2 in
    let T := Cmod N ^ 2 * (la / (2 * (n_mB d + n_mM d) ^ 2) * n_ff d q2 FV ^ 2 * Cmod (left_total d i j + n_CR d i j)%C ^ 2
                           + (n_mB d + n_mM d) ^ 2 / 2 * n_ff d q2 FA1 ^ 2 * Cmod (left_total d i j - n_CR d i j)%C ^ 2) in
    Cmod (aV (H q2 i j) Hpl) ^ 2 + Cmod (aV (H q2 i j) Hmi) ^ 2 = T /\ Cmod (aA (H q2 i j) Hpl) ^ 2 + Cmod (aA (H q2 i j) Hmi) ^ 2 = T.
  Proof using ok.
    intros Q la T. destruct (CL_is i j) as (Ev & Ea). destruct ok as (B & M & _).
    assert (sq : sqrt la * sqrt la = la) by (apply sqrt_sqrt, lambda_nonneg).
    unfold T, H, helicity_amps_v. cbv zeta. cbn [aV aA]. rewrite Ev, Ea. fold la.
    change (nunu_wceff d i j Wvp) with (n_CR d i j). change (nunu_wceff d i j Wap) with (- n_CR d i j)%C.
    change (nunu_wceff d i j W7) with (RtoC 0). change (nunu_wceff d i j W7p) with (RtoC 0). fold N.
    set (L := left_total d i j). set (Rr := n_CR d i j). set (m := n_mB d + n_mM d). assert (m0 : 0 < m) by (unfold m; lra).
    set (x := (RtoC (sqrt la * n_ff d q2 FV) * (L + Rr))%C). set (y := (RtoC (m ^ 2 * n_ff d q2 FA1) * (L - Rr))%C).
    assert (F : 2 * (Cmod x ^ 2 + Cmod y ^ 2) / (2 * m) ^ 2 = la / (2 * m ^ 2) * n_ff d q2 FV ^ 2 * Cmod (L + Rr)%C ^ 2 + m ^ 2 / 2 * n_ff d q2 FA1 ^ 2 * Cmod (L - Rr)%C ^ 2).
    { unfold x, y. rewrite !sq_scale. replace ((sqrt la * n_ff d q2 FV) ^ 2) with (la * n_ff d q2 FV ^ 2) by (rewrite <- sq at 1; ring). field. lra. }
    assert (G : forall z : C, (Ci / RtoC (2 * m) * z)%C = (Ci * RtoC (/ (2 * m)) * z)%C). { intros z. unfold Cdiv. rewrite <- RtoC_inv by lra. ring. }
    assert (Z : forall u v w : C, (Ci * RtoC 4 / RtoC q2 * ((RtoC 0 + RtoC 0) * u * v - (RtoC 0 - RtoC 0) * w * v) = RtoC 0)%C) by (intros; ring).
    split.
    - match goal with |- Cmod (N * ?p)%C ^ 2 + Cmod (N * ?q)%C ^ 2 = _ =>
        replace p with (Ci * RtoC (/ (2 * m)) * (x - y))%C by (rewrite G; unfold x, y; rewrite !RtoC_mult; ring);
        replace q with (Ci * RtoC (/ (2 * m)) * (- x - y))%C by (rewrite G; unfold x, y; rewrite !RtoC_mult; ring) end.
      rewrite !sq_i. rewrite <- Rmult_plus_distr_l, parallelogram, <- F. field. lra.
    - match goal with |- Cmod (N * ?p)%C ^ 2 + Cmod (N * ?q)%C ^ 2 = _ =>
        replace p with (Ci * RtoC (- / (2 * m)) * (x - y))%C by (rewrite G; unfold x, y; rewrite RtoC_opp, !RtoC_mult; ring);
        replace q with (Ci * RtoC (- / (2 * m)) * (- x - y))%C by (rewrite G; unfold x, y; rewrite RtoC_opp, !RtoC_mult; ring) end.
      rewrite !sq_i. rewrite <- Rmult_plus_distr_l, parallelogram, <- F. field. lra.
  Qed.
  Lemma sum_over (f : lep3 -> lep3 -> R) : sum_nunu f = over_flavours (fun i => over_flavours (f i)).
  Proof using. clear. unfold sum_nunu, sum, over_flavours, lep. cbn. ring. Qed.
  Lemma over_lin (a b : R) (f g : lep3 -> lep3 -> C) : over_flavours (fun i => over_flavours (fun j => a * Cmod (f i j) ^ 2 + b * Cmod (g i j) ^ 2)) = a * sumsq f + b * sumsq g.
  Proof using. clear. unfold sumsq, over_flavours. ring. Qed.
  (** in the physical region, and beyond the endpoint *)
  Lemma rate_v (q2 : R) : 0 < q2 <= q2max d ->
    sum_nunu (fun i j => dGdq2 (bvnunu_J d q2 i j)) = rate_long d q2 + rate_para d q2 + rate_perp d q2 /\ bvnunu_fl_num_summed d q2 = rate_long d q2.
  Proof using ok.
    intros (Q & E). pose proof ok as (B & M & _). pose proof PI_RGT_0 as P. destruct (lambda_in (n_mB d) (n_mM d) q2 B M E) as (La & Lp).
    assert (X : forall i j, dGdq2 (bvnunu_J d q2 i j) = nunu_norm d q2 * (16 * n_mB d ^ 2 * n_mM d ^ 2 * n_ff d q2 FA12 ^ 2 + q2 * (n_mB d + n_mM d) ^ 2 / 2 * n_ff d q2 FA1 ^ 2) * Cmod (left_total d i j - n_CR d i j)%C ^ 2
        + nunu_norm d q2 * (q2 * momentum (n_mB d) (n_mM d) q2 / (2 * (n_mB d + n_mM d) ^ 2) * n_ff d q2 FV ^ 2) * Cmod (left_total d i j + n_CR d i j)%C ^ 2 /\
      - bvnunu_J d q2 i j J2c = nunu_norm d q2 * (16 * n_mB d ^ 2 * n_mM d ^ 2 * n_ff d q2 FA12 ^ 2) * Cmod (left_total d i j - n_CR d i j)%C ^ 2).
    { intros i j. destruct (amp_rest q2 i j Q) as (t & tt & s & p). unfold bvnunu_J. fold (H q2 i j).
      destruct (dG_massless (H q2 i j) q2 (n_mB d) (n_mM d) Q B t tt s p) as (E1 & E2). rewrite E1, E2.
      destruct (amp_0 q2 i j Q) as (a0 & b0). destruct (amp_pm q2 i j Q) as (ap & bp).
      replace (Cmod (aV (H q2 i j) Hpl) ^ 2 + Cmod (aV (H q2 i j) Hmi) ^ 2 + Cmod (aV (H q2 i j) H0) ^ 2 + Cmod (aA (H q2 i j) Hpl) ^ 2 + Cmod (aA (H q2 i j) Hmi) ^ 2 + Cmod (aA (H q2 i j) H0) ^ 2)
        with ((Cmod (aV (H q2 i j) Hpl) ^ 2 + Cmod (aV (H q2 i j) Hmi) ^ 2) + Cmod (aV (H q2 i j) H0) ^ 2 + (Cmod (aA (H q2 i j) Hpl) ^ 2 + Cmod (aA (H q2 i j) Hmi) ^ 2) + Cmod (aA (H q2 i j) H0) ^ 2) by ring.
      rewrite ap, bp, a0, b0. unfold N. rewrite !pre_is, La. unfold nunu_norm.
      set (pl := Cmod (left_total d i j + n_CR d i j)%C ^ 2). set (mi := Cmod (left_total d i j - n_CR d i j)%C ^ 2). set (sl := sqrt (momentum (n_mB d) (n_mM d) q2)).
      set (xx := Cmod (n_xit d) ^ 2). set (mo := momentum (n_mB d) (n_mM d) q2). split; field; repeat split; lra. }
    split.
    - rewrite sum_over. transitivity (over_flavours (fun i => over_flavours (fun j =>
        nunu_norm d q2 * (16 * n_mB d ^ 2 * n_mM d ^ 2 * n_ff d q2 FA12 ^ 2 + q2 * (n_mB d + n_mM d) ^ 2 / 2 * n_ff d q2 FA1 ^ 2) * Cmod (left_total d i j - n_CR d i j)%C ^ 2
        + nunu_norm d q2 * (q2 * momentum (n_mB d) (n_mM d) q2 / (2 * (n_mB d + n_mM d) ^ 2) * n_ff d q2 FV ^ 2) * Cmod (left_total d i j + n_CR d i j)%C ^ 2))).
      + unfold over_flavours. rewrite !(proj1 (X _ _)). reflexivity.
      + rewrite over_lin. unfold rate_long, rate_para, rate_perp, axial_strength, vector_strength. ring.
    - unfold bvnunu_fl_num_summed. rewrite sum_over. unfold over_flavours. rewrite !(proj2 (X _ _)). unfold rate_long, axial_strength, sumsq, over_flavours. ring.
  Qed.
  Lemma rate_p (q2 : R) : 0 < q2 <= q2max d -> sum_nunu (fun i j => P_dGdq2 (bpnunu_J d q2 i j)) = rate_P d q2.
  Proof using ok.
    intros (Q & E). pose proof ok as (B & M & _). pose proof PI_RGT_0 as P. destruct (lambda_in (n_mB d) (n_mM d) q2 B M E) as (La & Lp).
    assert (sl : sqrt (momentum (n_mB d) (n_mM d) q2) * sqrt (momentum (n_mB d) (n_mM d) q2) = momentum (n_mB d) (n_mM d) q2) by now apply sqrt_sqrt.
    assert (sq : 0 < sqrt q2) by now apply sqrt_lt_R0. assert (S2 : sqrt q2 * sqrt q2 = q2) by (apply sqrt_sqrt; lra).
    assert (X : forall i j, P_dGdq2 (bpnunu_J d q2 i j) = nunu_norm d q2 * (momentum (n_mB d) (n_mM d) q2 / 4 * n_ff d q2 Fplus ^ 2) * Cmod (left_total d i j + n_CR d i j)%C ^ 2).
    { intros i j. destruct (CL_is i j) as (Ev & Ea). unfold bpnunu_J.
      set (h := helicity_amps_p q2 (n_mB d) (n_mM d) 4 0 0 0 (n_ff d q2) (nunu_wceff d i j) (nunu_prefactor d)).
      assert (Z1 : (0 + 0) / q2 = 0) by (field; lra). assert (Z2 : (0 - 0) / q2 = 0) by (field; lra).
      assert (D : ((RtoC 0 + RtoC 0) / RtoC (4 - 0) = RtoC 0)%C). { unfold Cdiv. rewrite <- RtoC_inv by lra. apply injective_projections; cbn; ring. }
      assert (z1 : pT h = RtoC 0) by (unfold h, helicity_amps_p, nunu_wceff, get_wceff_nunu; cbn [pT]; ring).
      assert (z2 : pTt h = RtoC 0) by (unfold h, helicity_amps_p, nunu_wceff, get_wceff_nunu; cbn [pTt]; ring).
      assert (z3 : pS h = RtoC 0) by (unfold h, helicity_amps_p, nunu_wceff, get_wceff_nunu; cbn [pS]; rewrite Z2, D; ring).
      assert (z4 : pP h = RtoC 0) by (unfold h, helicity_amps_p, nunu_wceff, get_wceff_nunu; cbn [pP]; rewrite Z1, D; ring).
      rewrite (PG_massless h q2 (n_mB d) (n_mM d) Q B z1 z2 z3 z4).
      set (r := sqrt (momentum (n_mB d) (n_mM d) q2) / (2 * sqrt q2) * n_ff d q2 Fplus).
      assert (v : pV h = (N * (RtoC r * (left_total d i j + n_CR d i j)))%C).
      { unfold h, helicity_amps_p. cbv zeta. cbn [pV]. rewrite Ev, La. change (nunu_wceff d i j Wvp) with (n_CR d i j). change (nunu_wceff d i j W7) with (RtoC 0). change (nunu_wceff d i j W7p) with (RtoC 0).
        fold N. unfold r. rewrite RtoC_mult. ring. }
      assert (a : pA h = (N * (RtoC (- r) * (left_total d i j + n_CR d i j)))%C).
      { unfold h, helicity_amps_p. cbv zeta. cbn [pA]. rewrite Ea, La. change (nunu_wceff d i j Wap) with (- n_CR d i j)%C.
        fold N. unfold r. rewrite RtoC_opp, RtoC_mult. ring. }
      assert (r2 : r ^ 2 = momentum (n_mB d) (n_mM d) q2 / (4 * q2) * n_ff d q2 Fplus ^ 2).
      { unfold r. set (s := sqrt (momentum (n_mB d) (n_mM d) q2)) in *. set (mo := momentum (n_mB d) (n_mM d) q2) in *. rewrite <- sl.
        replace (4 * q2) with (4 * (sqrt q2 * sqrt q2)) by (rewrite S2; reflexivity). field. lra. }
      rewrite v, a, !sq_r. replace ((- r) ^ 2) with (r ^ 2) by ring. rewrite r2. unfold N. rewrite pre_is, La. unfold nunu_norm.
      set (pl := Cmod (left_total d i j + n_CR d i j)%C ^ 2). set (xx := Cmod (n_xit d) ^ 2).
      set (s := sqrt (momentum (n_mB d) (n_mM d) q2)). set (mo := momentum (n_mB d) (n_mM d) q2). field; repeat split; lra. }
    rewrite sum_over. unfold over_flavours. rewrite !X. unfold rate_P, vector_strength, sumsq, over_flavours. ring.
  Qed.
End Nunu.
