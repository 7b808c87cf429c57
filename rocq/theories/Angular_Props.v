(** * Properties of the angular distributions of B -> V l l and B -> P l l (C56, C115 - C120) *)
From Coq Require Import Reals Lra Psatz.
From Coquelicot Require Import Coquelicot.
From Verif Require Import Base Basics_Model Basics_Proofs Angular_Model Angular_Spec Angular_Proofs Angular_Proofs2 Angular_Proofs3 Angular_Proofs4 Angular_Proofs5 Angular_Proofs6 Angular_Proofs7 Angular_Proofs8 Angular_Proofs9.
Local Open Scope R_scope.

Notation coeffs := angularcoeffs_general_v.

(** ** C56: angular observables are physical *)
(** the distribution built from the coefficients is the sum over lepton helicities of squared amplitudes *)
Theorem C56_distribution (H : amps) (q2 mB mV m1 m2 thK thl phi : R) : physical q2 m1 m2 ->
  distribution (coeffs H q2 mB mV m1 m2) thK thl phi = 16 / 3 * normalisation q2 mB mV m1 m2 * helicity_sum q2 m1 m2 H thK thl phi.
Proof. intros Ph. now apply distribution_is. Qed.
Theorem C56_distribution_positive (H : amps) (q2 mB mV m1 m2 thK thl phi : R) : physical q2 m1 m2 -> 0 < mB ->
  0 <= distribution (coeffs H q2 mB mV m1 m2) thK thl phi.
Proof.
  intros Ph HB. rewrite C56_distribution by assumption. apply Rmult_le_pos.
  - pose proof (norm_pos q2 mB mV m1 m2 HB) as P. destruct Ph as (_ & _ & Q & _). specialize (P Q). lra.
  - unfold helicity_sum. cbv zeta. repeat apply Rplus_le_le_0_compat; apply pow2_ge_0.
Qed.
Theorem C56_rate_positive (H : amps) (q2 mB mV m1 m2 : R) : physical q2 m1 m2 -> 0 < mB -> 0 <= dGdq2 (coeffs H q2 mB mV m1 m2).
Proof. intros. now apply rate_pos. Qed.

Lemma SA_den_is (J J' : jkey -> R) : SA_den J J' = dGdq2 J + dGdq2 J'.
Proof. unfold SA_den, dGdq2_ave. field. Qed.
(** a decay with amplitudes H and its conjugate with amplitudes H', of which at least one occurs *)
Section Pair.
  Variables (H H' : amps) (q2 mB mV m1 m2 : R).
  Hypotheses (Ph : physical q2 m1 m2) (HB : 0 < mB).
  Let J := coeffs H q2 mB mV m1 m2.
  Let J' := coeffs H' q2 mB mV m1 m2.
  Hypothesis Hr : dGdq2 J + dGdq2 J' <> 0.
  Lemma den_pos : 0 < dGdq2 J + dGdq2 J'.
  Proof using Ph HB Hr.
    assert (a : 0 <= dGdq2 J) by now apply rate_pos. assert (b : 0 <= dGdq2 J') by now apply rate_pos.
    destruct (Rle_lt_or_eq_dec 0 (dGdq2 J + dGdq2 J')) as [E | E]; [lra | exact E | exfalso; apply Hr; symmetry; exact E].
  Qed.
  Lemma FL_le_1 : FL J J' <= 1.
  Proof using Ph HB Hr.
    unfold FL, FL_num, S_theory_num. rewrite SA_den_is. pose proof den_pos as D.
    assert (a : - J J2c <= dGdq2 J) by now apply FL_upper. assert (b : - J' J2c <= dGdq2 J') by now apply FL_upper.
    apply (Rmult_le_reg_r (dGdq2 J + dGdq2 J')); [exact D |]. unfold Rdiv. rewrite Rmult_assoc, Rinv_l by lra. lra.
  Qed.
  Lemma FL_ge_0 : no_tensors H -> no_tensors H' -> 0 <= FL J J'.
  Proof using Ph HB Hr.
    intros N N'. unfold FL, FL_num, S_theory_num. rewrite SA_den_is. pose proof den_pos as D.
    assert (a : J J2c <= 0) by now apply J2c_neg. assert (b : J' J2c <= 0) by now apply J2c_neg.
    apply Rmult_le_pos; [lra |]. left. now apply Rinv_0_lt_compat.
  Qed.
  Lemma FL_ge_m2 : -2 <= FL J J'.
  Proof using Ph HB Hr.
    unfold FL, FL_num, S_theory_num. rewrite SA_den_is. pose proof den_pos as D.
    assert (a : J J2c <= 2 * dGdq2 J) by now apply FL_lower. assert (b : J' J2c <= 2 * dGdq2 J') by now apply FL_lower.
    apply (Rmult_le_reg_r (dGdq2 J + dGdq2 J')); [exact D |]. unfold Rdiv. rewrite Rmult_assoc, Rinv_l by lra. lra.
  Qed.
  Lemma S6s_bound : Rabs (J J6s + J' J6s) <= dGdq2 J + dGdq2 J'.
  Proof using Ph HB.
    assert (a : Rabs (J J6s) <= dGdq2 J) by now apply J6s_bound. assert (b : Rabs (J' J6s) <= dGdq2 J') by now apply J6s_bound.
    eapply Rle_trans; [apply Rabs_triang | lra].
  Qed.
  Lemma AFB_bound : Rabs (AFB_theory J J') <= 3 / 4.
  Proof using Ph HB Hr.
    unfold AFB_theory, AFB_theory_num, S_theory_num. rewrite SA_den_is. pose proof den_pos as D. pose proof S6s_bound as B.
    apply Rabs_le_between in B. apply Rabs_le.
    split; apply (Rmult_le_reg_r (dGdq2 J + dGdq2 J')); try exact D; unfold Rdiv; rewrite !Rmult_assoc, Rinv_l by lra; lra.
  Qed.
End Pair.
Theorem C56_FL (H H' : amps) (q2 mB mV m1 m2 : R) : physical q2 m1 m2 -> 0 < mB ->
  let J := coeffs H q2 mB mV m1 m2 in let J' := coeffs H' q2 mB mV m1 m2 in dGdq2 J + dGdq2 J' <> 0 ->
  -2 <= FL J J' <= 1 /\ (no_tensors H -> no_tensors H' -> 0 <= FL J J' <= 1).
Proof.
  intros Ph HB J J' Hr. refine (conj (conj _ _) (fun N N' => conj _ _)); [now apply FL_ge_m2 | now apply FL_le_1 | now apply FL_ge_0 | now apply FL_le_1].
Qed.
(** the amplitudes computed from form factors and Wilson coefficients without tensor operators *)
Theorem C56_FL_amplitudes (q2 mB mV mqh mql ml : R) (ff : ffkey -> R) (wc wc' : wckey -> C) (pre pre' : C) : physical q2 ml ml -> 0 < mB ->
  wc Wt = RtoC 0 -> wc Wtp = RtoC 0 -> wc' Wt = RtoC 0 -> wc' Wtp = RtoC 0 ->
  let J := coeffs (helicity_amps_v q2 mB mV mqh mql ml ml ff wc pre) q2 mB mV ml ml in
  let J' := coeffs (helicity_amps_v q2 mB mV mqh mql ml ml ff wc' pre') q2 mB mV ml ml in
  dGdq2 J + dGdq2 J' <> 0 -> 0 <= FL J J' <= 1.
Proof.
  intros Ph HB t1 t2 t3 t4 J J' Hr.
  assert (N : forall w p, w Wt = RtoC 0 -> w Wtp = RtoC 0 -> no_tensors (helicity_amps_v q2 mB mV mqh mql ml ml ff w p)).
  { intros w p a b l. unfold helicity_amps_v. cbv zeta. cbn [aT aTt]. split; destruct l; rewrite a, b; ring. }
  apply (C56_FL _ _ q2 mB mV ml ml Ph HB Hr); now apply N.
Qed.
Theorem C56_AFB (H H' : amps) (q2 mB mV m1 m2 : R) : physical q2 m1 m2 -> 0 < mB ->
  let J := coeffs H q2 mB mV m1 m2 in let J' := coeffs H' q2 mB mV m1 m2 in dGdq2 J + dGdq2 J' <> 0 ->
  Rabs (AFB_theory J J') <= 3 / 4 /\ AFB_experiment J J' = - AFB_theory J J'.
Proof.
  intros Ph HB J J' Hr. split; [now apply AFB_bound |].
  unfold AFB_experiment, AFB_experiment_num, S_experiment_num, AFB_theory, AFB_theory_num, Rdiv. cbn [signflip]. ring.
Qed.
(** averages and asymmetries reconstruct the coefficients of both decays; the conventions differ by signs *)
Theorem C56_reconstruct (J J' : jkey -> R) (i : jkey) : dGdq2 J + dGdq2 J' <> 0 ->
  let total := dGdq2 J + dGdq2 J' in
  J i = (S_theory J J' i + A_theory J J' i) * total / 2 /\ J' i = (S_theory J J' i - A_theory J J' i) * total / 2 /\
  Rabs (S_experiment J J' i) = Rabs (S_theory J J' i) /\ Rabs (A_experiment J J' i) = Rabs (A_theory J J' i) /\
  (S_experiment J J' i = - S_theory J J' i /\ A_experiment J J' i = - A_theory J J' i <-> i = J4 \/ i = J6s \/ i = J6c \/ i = J7 \/ i = J9 \/ J i = 0 /\ J' i = 0).
Proof.
  intros Hr total. unfold S_experiment, A_experiment, S_theory, A_theory, S_theory_num, A_theory_num, S_experiment_num, A_experiment_num, S_theory_num, A_theory_num.
  rewrite SA_den_is. fold total in Hr |- *. refine (conj _ (conj _ (conj _ (conj _ _)))).
  - field. exact Hr.
  - field. exact Hr.
  - destruct (signflip i); [| reflexivity]. unfold Rdiv. rewrite <- Ropp_mult_distr_l. apply Rabs_Ropp.
  - destruct (signflip i); [| reflexivity]. unfold Rdiv. rewrite <- Ropp_mult_distr_l. apply Rabs_Ropp.
  - assert (Z : forall x, x / total = - (x / total) -> x = 0).
    { intros x E. assert (x / total = 0) as E0 by lra. apply (f_equal (fun y => y * total)) in E0. unfold Rdiv in E0. rewrite Rmult_assoc, Rinv_l, Rmult_1_r in E0 by exact Hr. lra. }
    split.
    + intros (E & E'). destruct i; cbn [signflip] in E, E'; try tauto; apply Z in E, E'; do 5 right; lra.
    + intros [-> | [-> | [-> | [-> | [-> | (E & E')]]]]]; cbn [signflip]; try (unfold Rdiv; split; ring). rewrite E, E'. destruct (signflip i); unfold Rdiv; split; ring.
Qed.
(** CP asymmetry of the rate *)
Theorem C56_rate_asymmetry (H H' : amps) (q2 mB mV m1 m2 : R) : physical q2 m1 m2 -> 0 < mB ->
  let J := coeffs H q2 mB mV m1 m2 in let J' := coeffs H' q2 mB mV m1 m2 in dGdq2 J + dGdq2 J' <> 0 ->
  dGdq2_diff J J' / dGdq2_ave J J' = (dGdq2 J - dGdq2 J') / (dGdq2 J + dGdq2 J') /\ -1 <= dGdq2_diff J J' / dGdq2_ave J J' <= 1.
Proof.
  intros Ph HB J J' Hr. assert (E : dGdq2_diff J J' / dGdq2_ave J J' = (dGdq2 J - dGdq2 J') / (dGdq2 J + dGdq2 J')) by (unfold dGdq2_diff, dGdq2_ave; field; exact Hr).
  split; [exact E |]. rewrite E. assert (D : 0 < dGdq2 J + dGdq2 J') by now apply den_pos.
  assert (a : 0 <= dGdq2 J) by now apply rate_pos. assert (b : 0 <= dGdq2 J') by now apply rate_pos.
  split; apply (Rmult_le_reg_r (dGdq2 J + dGdq2 J')); try exact D; unfold Rdiv; rewrite Rmult_assoc, Rinv_l by lra; lra.
Qed.
(** an instance: one vector amplitude, massless leptons *)
Definition one_vector : amps := {| aV := fun l => match l with H0 => RtoC 1 | _ => RtoC 0 end; aA := fun _ => RtoC 0; aP := RtoC 0; aS := RtoC 0; aT := fun _ => RtoC 0; aTt := fun _ => RtoC 0 |}.
Lemma physical_example : physical 1 0 0.
Proof. unfold physical. lra. Qed.
Lemma Cmod_real (x : R) : Cmod (RtoC x) ^ 2 = x ^ 2.
Proof. rewrite cmod_sq. unfold RtoC. cbn [fst snd]. ring. Qed.
Lemma long_rate (H : amps) (q2 mB mV : R) : 0 < q2 -> no_tensors H -> aS H = RtoC 0 -> aP H = RtoC 0 -> aV H Hpl = RtoC 0 -> aV H Hmi = RtoC 0 -> aA H Hpl = RtoC 0 -> aA H Hmi = RtoC 0 ->
  dGdq2 (coeffs H q2 mB mV 0 0) = 8 / 3 * normalisation q2 mB mV 0 0 * q2 * (Cmod (aV H H0) ^ 2 + Cmod (aA H H0) ^ 2).
Proof.
  intros Hq N s p v1 v2 a1 a2.
  pose proof (massless_s H q2 mB mV Hq N) as ms. pose proof (massless_c H q2 mB mV Hq N s p) as mc.
  pose proof (nt_2s H q2 mB mV 0 0 _ _ _ _ _ (Rle_refl 0) (Rle_refl 0) (massless_kin q2 Hq) N) as e1.
  pose proof (nt_2c H q2 mB mV 0 0 _ _ _ _ _ (Rle_refl 0) (Rle_refl 0) (massless_kin q2 Hq) N) as e2.
  unfold dGdq2. rewrite ms, mc, e1, e2. unfold trans_sq, long_sq. rewrite v1, v2, a1, a2, !bil_0l, !mod_bil. cbn [fst RtoC].
  pose proof (sqrt_sqrt q2 (Rlt_le _ _ Hq)) as SQ. replace ((sqrt q2 / 2) ^ 2) with (q2 / 4) by (rewrite <- SQ at 1; field). field.
Qed.
Lemma norm_example : 0 < normalisation 1 5 1 0 0.
Proof.
  unfold normalisation, triangle. apply Rdiv_lt_0_compat.
  - apply Rmult_lt_0_compat; apply sqrt_lt_R0; lra.
  - apply Rmult_lt_0_compat; [| lra]. apply Rmult_lt_0_compat; [| lra]. apply Rmult_lt_0_compat; [lra | apply pow_lt, PI_RGT_0].
Qed.
Example C56_met : no_tensors one_vector /\ physical 1 0 0 /\ dGdq2 (coeffs one_vector 1 5 1 0 0) + dGdq2 (coeffs one_vector 1 5 1 0 0) <> 0.
Proof.
  assert (N : no_tensors one_vector) by (intros l; split; reflexivity). refine (conj N (conj physical_example _)).
  rewrite long_rate; [| lra | exact N | reflexivity | reflexivity | reflexivity | reflexivity | reflexivity | reflexivity]. cbn [aV aA one_vector]. rewrite !Cmod_real. pose proof norm_example. lra.
Qed.

(** ** C116: the rate and the forward-backward asymmetry are integrals of the distribution *)
Definition rate_between (J : jkey -> R) (a b : R) : R := RInt (fun phi => RInt (fun thl => RInt (fun thK => density J thK thl phi) 0 PI) a b) 0 (2 * PI).
Theorem C116_rate (J : jkey -> R) : rate_between J 0 PI = dGdq2 J.
Proof. apply rate_is_integral. Qed.
(** forward minus backward over all, both decays together; the published asymmetry leaves out the coefficient 6c *)
Theorem C116_AFB (J J' : jkey -> R) : dGdq2 J + dGdq2 J' <> 0 ->
  let forward := rate_between J 0 (PI / 2) + rate_between J' 0 (PI / 2) in
  let backward := rate_between J (PI / 2) PI + rate_between J' (PI / 2) PI in
  (forward - backward) / (forward + backward) = AFB_theory J J' + 3 / 8 * S_theory J J' J6c.
Proof.
  intros Hr forward backward. pose proof (forward_backward J) as a. pose proof (forward_backward J') as b.
  assert (D : forward - backward = 3 / 8 * (2 * (J J6s + J' J6s) + (J J6c + J' J6c))) by (unfold forward, backward, rate_between; unfold zero in *; simpl in *; lra).
  assert (S : forward + backward = dGdq2 J + dGdq2 J').
  { unfold forward, backward, rate_between. rewrite !density_all, cos_0, cos_PI2, cos_PI. unfold dGdq2. toR. field. }
  rewrite D, S. unfold AFB_theory, AFB_theory_num, S_theory, S_theory_num. rewrite SA_den_is. field. exact Hr.
Qed.
(** without scalar and tensor amplitudes nothing is left out *)
Theorem C116_AFB_vector (H H' : amps) (q2 mB mV m1 m2 : R) : physical q2 m1 m2 -> aS H = RtoC 0 -> aP H = RtoC 0 -> aS H' = RtoC 0 -> aP H' = RtoC 0 ->
  let J := coeffs H q2 mB mV m1 m2 in let J' := coeffs H' q2 mB mV m1 m2 in dGdq2 J + dGdq2 J' <> 0 ->
  let forward := rate_between J 0 (PI / 2) + rate_between J' 0 (PI / 2) in
  let backward := rate_between J (PI / 2) PI + rate_between J' (PI / 2) PI in
  (forward - backward) / (forward + backward) = AFB_theory J J'.
Proof.
  intros Ph s p s' p' J J' Hr forward backward. unfold forward, backward. rewrite C116_AFB by exact Hr.
  assert (Z : forall X, aS X = RtoC 0 -> aP X = RtoC 0 -> coeffs X q2 mB mV m1 m2 J6c = 0).
  { intros X a b. rewrite coefficients by assumption. cbn [coeff_of]. unfold scalar, pseudo. rewrite a, b. rewrite !Cmult_0_r, !bil_0r. cbn [fst RtoC]. ring. }
  assert (Zs : S_theory J J' J6c = 0) by (unfold S_theory, S_theory_num, J, J'; rewrite !Z by assumption; unfold Rdiv; ring). rewrite Zs. ring.
Qed.
(** with the amplitudes computed by the library in the absence of scalar operators, for equal lepton masses *)
Theorem C116_AFB_equal_masses (q2 mB mV mqh mql ml : R) (ff : ffkey -> R) (wc wc' : wckey -> C) (pre pre' : C) : physical q2 ml ml ->
  wc Ws = RtoC 0 -> wc Wsp = RtoC 0 -> wc Wt = RtoC 0 -> wc Wtp = RtoC 0 -> wc' Ws = RtoC 0 -> wc' Wsp = RtoC 0 -> wc' Wt = RtoC 0 -> wc' Wtp = RtoC 0 ->
  let J := coeffs (helicity_amps_v q2 mB mV mqh mql ml ml ff wc pre) q2 mB mV ml ml in
  let J' := coeffs (helicity_amps_v q2 mB mV mqh mql ml ml ff wc' pre') q2 mB mV ml ml in
  dGdq2 J + dGdq2 J' <> 0 ->
  let forward := rate_between J 0 (PI / 2) + rate_between J' 0 (PI / 2) in
  let backward := rate_between J (PI / 2) PI + rate_between J' (PI / 2) PI in
  (forward - backward) / (forward + backward) = AFB_theory J J'.
Proof.
  intros Ph a b c d a' b' c' d' J J' Hr forward backward. unfold forward, backward. rewrite C116_AFB by exact Hr.
  assert (L : aL q2 ml ml = 0) by (unfold aL, u1, w1, u2, w2; ring).
  assert (Z : forall w p, w Ws = RtoC 0 -> w Wsp = RtoC 0 -> w Wt = RtoC 0 -> w Wtp = RtoC 0 -> coeffs (helicity_amps_v q2 mB mV mqh mql ml ml ff w p) q2 mB mV ml ml J6c = 0).
  { intros w p e1 e2 e3 e4. rewrite coefficients by assumption. cbn [coeff_of].
    assert (S0 : scalar q2 ml ml (helicity_amps_v q2 mB mV mqh mql ml ml ff w p) = RtoC 0).
    { unfold scalar, helicity_amps_v. cbv zeta. cbn [aS]. rewrite e1, e2. replace ((ml - ml) / q2) with 0 by (unfold Rdiv; ring). unfold Cdiv. ring. }
    assert (M0 : same_a q2 ml ml (helicity_amps_v q2 mB mV mqh mql ml ml ff w p) H0 = RtoC 0).
    { unfold same_a, helicity_amps_v. cbv zeta. cbn [aA aT]. rewrite L, e3, e4. ring. }
    rewrite S0, M0, bil_0l, bil_0r. cbn [fst RtoC]. ring. }
  assert (Zs : S_theory J J' J6c = 0) by (unfold S_theory, S_theory_num, J, J'; rewrite !Z by assumption; unfold Rdiv; ring). rewrite Zs. ring.
Qed.

(** ** C115 (refuted): the published forward-backward asymmetry is the forward-backward asymmetry for all amplitudes;
    the modified polarisation fraction is one *)
Definition vector_scalar : amps := {| aV := fun l => match l with H0 => RtoC 1 | _ => RtoC 0 end; aA := fun _ => RtoC 0; aP := RtoC 0; aS := RtoC 1; aT := fun _ => RtoC 0; aTt := fun _ => RtoC 0 |}.
Lemma vs_6c : 0 < coeffs vector_scalar 4 10 1 (1 / 2) (1 / 2) J6c.
Proof.
  assert (Ph : physical 4 (1 / 2) (1 / 2)) by (unfold physical; lra). rewrite coefficients by assumption. cbn [coeff_of].
  unfold same_v, same_a, scalar, pseudo. cbn [aV aA aP aS aT aTt vector_scalar]. rewrite !Cmult_0_r, !Cplus_0_r, !Cmult_1_r, bil_0l. unfold bil. rewrite Cconj_real, <- RtoC_mult. cbn [fst RtoC].
  destruct (kin _ _ _ Ph) as (s & i & k & E1 & E2 & K). destruct (prods _ _ _ _ _ _ _ _ (proj1 Ph) (proj1 (proj2 Ph)) K) as [_ _ _ _ _ _ _ P _ _]. rewrite P.
  assert (Hk : 0 < k).
  { destruct K as [Ks Kp _ Kk _ _ _ _ _ Kl _ _]. rewrite lambda_triangle in Kl by (unfold triangle; lra). unfold triangle in Kl. destruct Kk as [Kk | Kk]; [exact Kk | exfalso; rewrite <- Kk in Kl; nra]. }
  assert (N : 0 < normalisation 4 10 1 (1 / 2) (1 / 2)).
  { unfold normalisation, triangle. apply Rdiv_lt_0_compat; [apply Rmult_lt_0_compat; apply sqrt_lt_R0; lra |].
    apply Rmult_lt_0_compat; [| lra]. apply Rmult_lt_0_compat; [| lra]. apply Rmult_lt_0_compat; [lra | apply pow_lt, PI_RGT_0]. }
  apply Rmult_lt_0_compat; lra.
Qed.
Theorem C115_AFB_refuted : exists (H : amps) (q2 mB mV m : R), physical q2 m m /\ 0 < mB /\ no_tensors H /\
  let J := coeffs H q2 mB mV m m in 0 < dGdq2 J /\
  (rate_between J 0 (PI / 2) - rate_between J (PI / 2) PI) / (rate_between J 0 (PI / 2) + rate_between J (PI / 2) PI) <> AFB_theory J J.
Proof.
  assert (Ph : physical 4 (1 / 2) (1 / 2)) by (unfold physical; lra).
  exists vector_scalar, 4, 10, 1, (1 / 2). refine (conj Ph (conj _ (conj _ _))); [lra | intros l; split; reflexivity |].
  intros J. pose proof vs_6c as P. fold J in P.
  assert (R0 : 0 < dGdq2 J).
  { destruct (rate_pos vector_scalar 4 10 1 (1 / 2) (1 / 2) Ph ltac:(lra)) as [R | R]; [exact R | exfalso]. fold J in R.
    pose proof (rate_is vector_scalar 4 10 1 (1 / 2) (1 / 2) Ph) as E. fold J in E. rewrite <- R in E.
      destruct (parts_pos vector_scalar 4 (1 / 2) (1 / 2)) as (p1 & p2 & p3 & p4 & p5 & p6).
      assert (N : 0 < normalisation 4 10 1 (1 / 2) (1 / 2)).
      { unfold normalisation, triangle. apply Rdiv_lt_0_compat; [apply Rmult_lt_0_compat; apply sqrt_lt_R0; lra |].
        apply Rmult_lt_0_compat; [| lra]. apply Rmult_lt_0_compat; [| lra]. apply Rmult_lt_0_compat; [lra | apply pow_lt, PI_RGT_0]. }
      assert (SL : scal_L vector_scalar 4 (1 / 2) (1 / 2) = 0).
      { symmetry in E. apply Rmult_integral in E. destruct E as [E | E]; lra. }
      unfold J in P. rewrite coefficients in P by assumption. cbn [coeff_of] in P. unfold scal_L in SL.
      pose proof (bil_pos (scalar 4 (1 / 2) (1 / 2) vector_scalar)) as b1. pose proof (bil_pos (pseudo 4 (1 / 2) (1 / 2) vector_scalar)) as b2.
      assert (Z : forall z : C, fst (z .* z) = 0 -> z = RtoC 0). { intros z Ez. rewrite <- mod_bil in Ez. apply Cmod_eq_0. destruct (Req_dec (Cmod z) 0) as [E0 | E0]; [exact E0 | exfalso; apply (pow_nonzero _ 2 E0 Ez)]. }
      assert (z1 : scalar 4 (1 / 2) (1 / 2) vector_scalar = RtoC 0) by (apply Z; lra). assert (z2 : pseudo 4 (1 / 2) (1 / 2) vector_scalar = RtoC 0) by (apply Z; lra). rewrite z1, z2 in P. rewrite !bil_0r in P. cbn [fst RtoC] in P. lra. }
  split; [exact R0 |]. intros E.
  pose proof (C116_AFB J J) as A. cbv zeta in A. specialize (A ltac:(lra)).
  replace ((rate_between J 0 (PI / 2) + rate_between J 0 (PI / 2) - (rate_between J (PI / 2) PI + rate_between J (PI / 2) PI)) / (rate_between J 0 (PI / 2) + rate_between J 0 (PI / 2) + (rate_between J (PI / 2) PI + rate_between J (PI / 2) PI)))
    with ((rate_between J 0 (PI / 2) - rate_between J (PI / 2) PI) / (rate_between J 0 (PI / 2) + rate_between J (PI / 2) PI)) in A.
  - rewrite E in A. assert (S6 : S_theory J J J6c = 0) by lra. unfold S_theory, S_theory_num in S6. rewrite SA_den_is in S6.
    assert (0 < (J J6c + J J6c) / (dGdq2 J + dGdq2 J)) by (apply Rdiv_lt_0_compat; lra). lra.
  - assert (T : rate_between J 0 (PI / 2) + rate_between J (PI / 2) PI = dGdq2 J).
    { unfold rate_between. rewrite !density_all, cos_0, cos_PI2, cos_PI. unfold dGdq2. toR. field. }
    rewrite T. replace (rate_between J 0 (PI / 2) + rate_between J 0 (PI / 2) + (rate_between J (PI / 2) PI + rate_between J (PI / 2) PI)) with (2 * dGdq2 J) by lra. field. lra.
Qed.
Theorem C115_FLhat_refuted : exists (H : amps) (q2 mB mV : R), physical q2 0 0 /\ 0 < mB /\ no_tensors H /\
  let J := coeffs H q2 mB mV 0 0 in 0 < dGdq2 J /\ FL J J = 1 /\ FLhat J J = -1.
Proof.
  exists one_vector, 1, 5, 1. refine (conj physical_example (conj _ (conj _ _))); [lra | intros l; split; reflexivity |]. intros J.
  assert (N : no_tensors one_vector) by (intros l; split; reflexivity).
  assert (R : dGdq2 J = 8 / 3 * normalisation 1 5 1 0 0). { unfold J. rewrite long_rate; [| lra | exact N | reflexivity | reflexivity | reflexivity | reflexivity | reflexivity | reflexivity]. cbn [aV aA one_vector]. rewrite !Cmod_real. field. }
  assert (c : J J2c = - (8 / 3 * normalisation 1 5 1 0 0)).
  { unfold J. rewrite (nt_2c one_vector 1 5 1 0 0 _ _ _ _ _ (Rle_refl 0) (Rle_refl 0) (massless_kin 1 Rlt_0_1) N). unfold long_sq. rewrite <- !mod_bil. cbn [aV aA one_vector]. rewrite !Cmod_real, sqrt_1. field. }
  assert (d : J J1c = - J J2c) by (apply massless_c; [lra | exact N | reflexivity | reflexivity]).
  pose proof norm_example as P. unfold FL, FLhat, FL_num, FLhat_num, S_theory_num. rewrite SA_den_is. rewrite d, c, R. refine (conj _ (conj _ _)); [lra | field; lra | field; lra].
Qed.

(** ** C117: parity, CP conjugation, phase conventions *)
Lemma sign_triple k : sign k = -1 /\ triple_product k \/ sign k = 1 /\ ~ triple_product k.
Proof. unfold triple_product. destruct k; cbn [sign]; first [left; split; [reflexivity | tauto] | right; split; [reflexivity | intros [E | [E | E]]; discriminate]]. Qed.
(** exchanging the chiralities of the quark currents and the sign of axial lepton currents changes the sign of the coefficients 7, 8, 9 only *)
Theorem C117_parity (q2 mB mV mqh mql m1 m2 : R) (ff : ffkey -> R) (wc : wckey -> C) (pre : C) (k : jkey) : physical q2 m1 m2 ->
  let J w := coeffs (helicity_amps_v q2 mB mV mqh mql m1 m2 ff w pre) q2 mB mV m1 m2 k in
  (triple_product k -> J (parity wc) = - J wc) /\ (~ triple_product k -> J (parity wc) = J wc).
Proof.
  intros Ph J. pose proof (J_reflected _ _ q2 mB mV m1 m2 k Ph (parity_amps q2 mB mV mqh mql m1 m2 ff wc pre)) as E. fold (J (parity wc)) (J wc) in E.
  destruct (sign_triple k) as [(s & t) | (s & t)]; rewrite s in E; split; intros; try tauto; lra.
Qed.
(** without strong phases (coefficients and prefactor of the conjugate decay are complex conjugates) the CP asymmetries of all
    other coefficients and the CP averages of these vanish *)
Theorem C117_no_strong_phases (q2 mB mV mqh mql m1 m2 : R) (ff : ffkey -> R) (wc : wckey -> C) (pre : C) (k : jkey) : physical q2 m1 m2 ->
  let J := coeffs (helicity_amps_v q2 mB mV mqh mql m1 m2 ff wc pre) q2 mB mV m1 m2 in
  let J' := coeffs (helicity_amps_v q2 mB mV mqh mql m1 m2 ff (fun i => Cconj (wc i)) (Cconj pre)) q2 mB mV m1 m2 in
  dGdq2_diff J J' = 0 /\ (triple_product k -> S_theory J J' k = 0) /\ (~ triple_product k -> A_theory J J' k = 0).
Proof.
  intros Ph J J'. assert (E : forall i, J' i = sign i * J i) by (intros i; apply (J_conj _ _ q2 mB mV m1 m2 i Ph (conj_amps q2 mB mV mqh mql m1 m2 ff wc pre))).
  unfold S_theory, S_theory_num, A_theory, A_theory_num. refine (conj _ (conj _ _)).
  - unfold dGdq2_diff, dGdq2. rewrite !E. cbn [sign]. field.
  - intros t. rewrite E. destruct (sign_triple k) as [(s & _) | (_ & n)]; [rewrite s; unfold Rdiv; ring | tauto].
  - intros t. rewrite E. destruct (sign_triple k) as [(_ & n) | (s & _)]; [tauto | rewrite s; unfold Rdiv; ring].
Qed.
(** a common factor of all amplitudes, such as a phase convention of quarks, enters by its modulus *)
Theorem C117_common_factor (q2 mB mV mqh mql m1 m2 : R) (ff : ffkey -> R) (wc : wckey -> C) (pre : C) (k : jkey) : physical q2 m1 m2 ->
  coeffs (helicity_amps_v q2 mB mV mqh mql m1 m2 ff wc pre) q2 mB mV m1 m2 k
  = Cmod pre ^ 2 * coeffs (helicity_amps_v q2 mB mV mqh mql m1 m2 ff wc (RtoC 1)) q2 mB mV m1 m2 k.
Proof.
  intros Ph. rewrite <- J_scale by assumption. rewrite !coefficients by assumption. f_equal.
  apply coeff_ext; [intros l | intros l | intros l | intros l | |]; unfold flip, same_v, same_a, scalar, pseudo, amps_scale, helicity_amps_v; cbv zeta; cbn [aV aA aP aS aT aTt];
    try (destruct l); ring.
Qed.
Example C117_met : physical 1 0 0 /\ triple_product J7 /\ ~ triple_product J1s.
Proof. refine (conj physical_example (conj _ _)); unfold triple_product; [tauto | intros [E | [E | E]]; discriminate]. Qed.

(** ** C118: interference of the decay with mixing *)
(** the coefficients of the interference of amplitudes H with e^{i phi} Ht: what the coherent sum has beyond the separate decays *)
Theorem C118_interference (phi : R) (H Ht : amps) (q2 mB mV m1 m2 : R) (k : jkey) :
  angularcoeffs_h_v phi H Ht q2 mB mV m1 m2 k
  = coeffs (amps_add H (cos phi, sin phi) Ht) q2 mB mV m1 m2 k - coeffs H q2 mB mV m1 m2 k - coeffs Ht q2 mB mV m1 m2 k.
Proof. apply polarisation. Qed.
Theorem C118_same_amplitudes (phi : R) (H : amps) (q2 mB mV m1 m2 : R) (k : jkey) : physical q2 m1 m2 ->
  angularcoeffs_h_v phi H H q2 mB mV m1 m2 k = 2 * cos phi * coeffs H q2 mB mV m1 m2 k.
Proof.
  intros Ph. rewrite C118_interference.
  assert (E : coeffs (amps_add H (cos phi, sin phi) H) q2 mB mV m1 m2 k = Cmod (RtoC 1 + (cos phi, sin phi))%C ^ 2 * coeffs H q2 mB mV m1 m2 k).
  { rewrite <- J_scale by assumption. rewrite !coefficients by assumption. f_equal.
    apply coeff_ext; [intros l | intros l | intros l | intros l | |]; unfold flip, same_v, same_a, scalar, pseudo, amps_scale, amps_add; cbn [aV aA aP aS aT aTt]; ring. }
  rewrite E, cmod_sq. unfold Cplus, RtoC. cbn [fst snd]. pose proof (sin2_cos2 phi) as sc. unfold Rsqr in sc.
  replace ((1 + cos phi) ^ 2 + (0 + sin phi) ^ 2) with (2 + 2 * cos phi) by lra. ring.
Qed.
Theorem C118_opposite_phase (phi : R) (H Ht : amps) (q2 mB mV m1 m2 : R) (k : jkey) : physical q2 m1 m2 ->
  angularcoeffs_h_v (phi + PI) H Ht q2 mB mV m1 m2 k = - angularcoeffs_h_v phi H Ht q2 mB mV m1 m2 k.
Proof. apply h_opposite. Qed.
Theorem C118_bound (phi : R) (H Ht : amps) (q2 mB mV m1 m2 : R) : physical q2 m1 m2 -> 0 < mB ->
  Rabs (dGdq2 (angularcoeffs_h_v phi H Ht q2 mB mV m1 m2)) <= dGdq2 (coeffs H q2 mB mV m1 m2) + dGdq2 (coeffs Ht q2 mB mV m1 m2).
Proof. apply h_rate_bound. Qed.

(** ** C119: B -> P l l *)
Notation pcoefs := angularcoeffs_general_p.
Theorem C119_distribution (h : pamps) (q2 mB mP m1 m2 th : R) : physical q2 m1 m2 ->
  distribution_p (pcoefs h q2 mB mP m1 m2) th = 2 * normalisation q2 mB mP m1 m2 * helicity_sum_p q2 m1 m2 h th.
Proof. intros Ph. now apply distribution_p_is. Qed.
Theorem C119_positive (h : pamps) (q2 mB mP m1 m2 th : R) : physical q2 m1 m2 -> 0 < mB -> 0 <= distribution_p (pcoefs h q2 mB mP m1 m2) th /\ 0 <= P_dGdq2 (pcoefs h q2 mB mP m1 m2).
Proof.
  intros Ph HB. split; [now apply pos_p |]. destruct (ac_b h q2 mB mP m1 m2 Ph HB) as (a & b). pose proof (Rabs_pos (Jb (pcoefs h q2 mB mP m1 m2))). unfold P_dGdq2. lra.
Qed.
Theorem C119_integrals (J : pcoeffs) :
  RInt (fun th => distribution_p J th * sin th) 0 PI = P_dGdq2 J /\
  RInt (fun th => distribution_p J th * sin th) 0 (PI / 2) - RInt (fun th => distribution_p J th * sin th) (PI / 2) PI = P_AFB_num J.
Proof. split; [apply rate_p_integral | apply AFB_p_integral]. Qed.
(** the observables A_FB and F_H describe the CP-averaged distribution, and are bounded *)
Theorem C119_observables (h h' : pamps) (q2 mB mP m1 m2 th : R) : physical q2 m1 m2 -> 0 < mB ->
  let J := pcoefs h q2 mB mP m1 m2 in let J' := pcoefs h' q2 mB mP m1 m2 in
  P_dGdq2 J + P_dGdq2 J' <> 0 ->
  let AFB := P_ratio P_AFB_cpaverage_num P_dGdq2_cpaverage J J' in let FH := P_ratio P_FH_cpaverage_num P_dGdq2_cpaverage J J' in
  let ACP := P_ratio P_dGdq2_cpdiff P_dGdq2_cpaverage J J' in
  (distribution_p J th + distribution_p J' th) / (P_dGdq2 J + P_dGdq2 J') = 3 / 4 * (1 - FH) * sin th ^ 2 + FH / 2 + AFB * cos th /\
  0 <= FH <= 3 /\ Rabs AFB <= FH / 2 /\ -1 <= ACP <= 1 /\
  (pT h = RtoC 0 -> pTt h = RtoC 0 -> pT h' = RtoC 0 -> pTt h' = RtoC 0 -> FH <= 1).
Proof.
  intros Ph HB J J' Hr AFB FH ACP.
  assert (R : forall num den, P_ratio num den J J' = num J J' / den J J') by (intros; unfold P_ratio; destruct (Req_EM_T (num J J') 0) as [E | E]; [rewrite E; unfold Rdiv; ring | reflexivity]).
  destruct (ac_b h q2 mB mP m1 m2 Ph HB) as (b1 & a1). destruct (ac_b h' q2 mB mP m1 m2 Ph HB) as (b2 & a2). fold J in b1, a1. fold J' in b2, a2.
  destruct (C119_positive h q2 mB mP m1 m2 th Ph HB) as (_ & r1). destruct (C119_positive h' q2 mB mP m1 m2 th Ph HB) as (_ & r2). fold J in r1. fold J' in r2.
  apply Rabs_le_between in b1, b2. set (G := P_dGdq2 J + P_dGdq2 J') in *. assert (HG : 0 < G) by (unfold G in *; lra).
  assert (eF : FH = 2 * (Ja J + Jc J + (Ja J' + Jc J')) / G) by (unfold FH; rewrite R; unfold P_FH_cpaverage_num, P_FH_num, P_dGdq2_cpaverage; fold G; field; exact Hr).
  assert (eA : AFB = (Jb J + Jb J') / G) by (unfold AFB; rewrite R; unfold P_AFB_cpaverage_num, P_AFB_num, P_dGdq2_cpaverage; fold G; field; exact Hr).
  assert (eC : ACP = (P_dGdq2 J - P_dGdq2 J') / G) by (unfold ACP; rewrite R; unfold P_dGdq2_cpdiff, P_dGdq2_cpaverage; fold G; field; exact Hr).
  assert (eG : G = 2 * (Ja J + Jc J / 3) + 2 * (Ja J' + Jc J' / 3)) by reflexivity.
  assert (le : forall x y, x <= y * G -> x / G <= y) by (intros x y L; apply (Rmult_le_reg_r G); [exact HG | unfold Rdiv; rewrite Rmult_assoc, Rinv_l by lra; lra]).
  assert (ge : forall x y, y * G <= x -> y <= x / G) by (intros x y L; apply (Rmult_le_reg_r G); [exact HG | unfold Rdiv; rewrite Rmult_assoc, Rinv_l by lra; lra]).
  assert (HF : FH * G = 2 * (Ja J + Jc J + (Ja J' + Jc J'))) by (rewrite eF; field; lra).
  refine (conj _ (conj (conj _ _) (conj _ (conj (conj _ _) _)))).
  - unfold distribution_p. replace (sin th ^ 2) with (1 - cos th ^ 2) by (pose proof (sin2_cos2 th) as E; unfold Rsqr in E; lra). rewrite eF, eA. rewrite eG in HG |- *. field. lra.
  - rewrite eF. apply ge. lra.
  - rewrite eF. apply le. lra.
  - assert (X : FH / 2 * G = Ja J + Jc J + (Ja J' + Jc J')) by (rewrite eF; field; lra). assert (Y : - (FH / 2) * G = - (Ja J + Jc J + (Ja J' + Jc J'))) by (rewrite eF; field; lra).
    rewrite eA. apply Rabs_le. split; [apply ge | apply le]; lra.
  - rewrite eC. apply ge. unfold G. lra.
  - rewrite eC. apply le. unfold G. lra.
  - intros t1 t2 t3 t4. pose proof (c_neg h q2 mB mP m1 m2 Ph HB t1 t2) as c1. pose proof (c_neg h' q2 mB mP m1 m2 Ph HB t3 t4) as c2. fold J in c1. fold J' in c2. rewrite eF. apply le. lra.
Qed.
Definition one_vector_p : pamps := {| pV := RtoC 1; pA := RtoC 0; pS := RtoC 0; pP := RtoC 0; pT := RtoC 0; pTt := RtoC 0 |}.
Example C119_met : physical 1 0 0 /\ P_dGdq2 (pcoefs one_vector_p 1 5 1 0 0) + P_dGdq2 (pcoefs one_vector_p 1 5 1 0 0) <> 0.
Proof.
  refine (conj physical_example _). set (J := pcoefs one_vector_p 1 5 1 0 0).
  assert (E : distribution_p J (PI / 2) = Ja J) by (unfold distribution_p; rewrite cos_PI2; ring). pose proof (C119_distribution one_vector_p 1 5 1 0 0 (PI / 2) physical_example) as D1. fold J in D1. rewrite D1 in E.
  assert (E2 : distribution_p J 0 = Ja J + Jb J + Jc J) by (unfold distribution_p; rewrite cos_0; ring). pose proof (C119_distribution one_vector_p 1 5 1 0 0 0 physical_example) as D2. fold J in D2. rewrite D2 in E2.
  assert (E3 : distribution_p J PI = Ja J - Jb J + Jc J) by (unfold distribution_p; rewrite cos_PI; ring). pose proof (C119_distribution one_vector_p 1 5 1 0 0 PI physical_example) as D3. fold J in D3. rewrite D3 in E3.
  destruct (spinors0 1 Rlt_0_1) as (z1 & z2 & z3 & z4).
  assert (V : helicity_sum_p 1 0 0 one_vector_p (PI / 2) = 1 /\ helicity_sum_p 1 0 0 one_vector_p 0 = 0 /\ helicity_sum_p 1 0 0 one_vector_p PI = 0).
  { unfold helicity_sum_p, flip, same_v, same_a, scalar, pseudo, longitudinal, one_vector_p. cbn [aV aA aP aS aT aTt pV pA pS pP pT pTt]. cbv zeta. rewrite z1, z2, !Cmult_0_r, ?Cmult_0_l. unfold Cminus.
    replace (- RtoC 0)%C with (RtoC 0) by ring. rewrite !Cplus_0_r, !Cmult_0_r. replace (- RtoC 0)%C with (RtoC 0) by ring. rewrite !Cplus_0_r, Cmult_1_r, Cmod_0, Cmod_real. rewrite sin_PI2, sin_0, sin_PI. replace (vT 1 0 0 ^ 2) with 1 by (rewrite <- z3 at 1; ring). lra. }
  destruct V as (v1 & v2 & v3). rewrite v1 in E. rewrite v2 in E2. rewrite v3 in E3. unfold P_dGdq2. pose proof norm_example. lra.
Qed.

(** ** C120: optimised observables and transversity amplitudes *)
Section C120.
  Variables (H H' : amps) (q2 mB mV m1 m2 : R).
  Hypotheses (Ph : physical q2 m1 m2) (HB : 0 < mB) (NT : no_tensors H) (NT' : no_tensors H').
  Notation J := (coeffs H q2 mB mV m1 m2).
  Notation J' := (coeffs H' q2 mB mV m1 m2).
  Notation beta2 := (triangle q2 (m1 ^ 2) (m2 ^ 2) / q2 ^ 2).
  Theorem C120_P123 : J J2s + J' J2s <> 0 -> P1 J J' ^ 2 + 4 * beta2 * P2 J J' ^ 2 + 4 * P3 J J' ^ 2 <= 1.
  Proof using Ph HB NT NT'. now apply P123. Qed.
  Theorem C120_P48 : (J J2s + J' J2s) * (J J2c + J' J2c) <> 0 -> P4p J J' ^ 2 + P8p J J' ^ 2 <= 1 / 2.
  Proof using Ph HB NT NT'. now apply P48. Qed.
  Theorem C120_P56 : aS H = RtoC 0 -> aP H = RtoC 0 -> aS H' = RtoC 0 -> aP H' = RtoC 0 ->
    (J J2s + J' J2s) * (J J2c + J' J2c) <> 0 -> beta2 * (P5p J J' ^ 2 + P6p J J' ^ 2) <= 2.
  Proof using Ph HB NT NT'. intros s1 p1 s2 p2 D. apply P56; try assumption; unfold scalar, pseudo; [rewrite s1, p1 | rewrite s2, p2]; split; apply Cmult_0_r. Qed.
End C120.
(** massless leptons, no scalars: two relations; the rate is the sum of squared transversity amplitudes *)
Theorem C120_massless (H : amps) (q2 mB mV : R) : 0 < q2 -> no_tensors H -> let J := coeffs H q2 mB mV 0 0 in
  J J1s = 3 * J J2s /\ (aS H = RtoC 0 -> aP H = RtoC 0 -> J J1c = - J J2c).
Proof. intros Hq N J. split; [now apply massless_s | now apply massless_c]. Qed.
Theorem C120_transversity (ta : trans -> C) (q2 mB mV : R) : 0 < q2 -> let J := coeffs (transversity_to_helicity ta) q2 mB mV 0 0 in
  let norm := 16 / 3 * normalisation q2 mB mV 0 0 * q2 in
  dGdq2 J = norm * (Cmod (ta T0_L) ^ 2 + Cmod (ta T0_R) ^ 2 + Cmod (ta Tpara_L) ^ 2 + Cmod (ta Tpara_R) ^ 2 + Cmod (ta Tperp_L) ^ 2 + Cmod (ta Tperp_R) ^ 2) /\
  - J J2c = norm * (Cmod (ta T0_L) ^ 2 + Cmod (ta T0_R) ^ 2) /\
  4 * J J2s = norm * (Cmod (ta Tpara_L) ^ 2 + Cmod (ta Tpara_R) ^ 2 + Cmod (ta Tperp_L) ^ 2 + Cmod (ta Tperp_R) ^ 2).
Proof.
  intros Hq J norm. unfold J, norm. refine (conj _ (conj _ _)); [apply th_rate, Hq | rewrite th_2c by exact Hq; ring | rewrite th_2s by exact Hq; field].
Qed.
(** for massless leptons and vector operators they are the published ratios of the CP averages, F_L and A_FB *)
Theorem C120_published (H H' : amps) (q2 mB mV : R) : 0 < q2 -> 0 < mB -> no_tensors H -> no_tensors H' -> aS H = RtoC 0 -> aP H = RtoC 0 -> aS H' = RtoC 0 -> aP H' = RtoC 0 ->
  let J := coeffs H q2 mB mV 0 0 in let J' := coeffs H' q2 mB mV 0 0 in dGdq2 J + dGdq2 J' <> 0 ->
  let S := S_experiment J J' in let F := FL J J' in F <> 0 -> F <> 1 ->
  P1 J J' = 2 * S J3 / (1 - F) /\ P2 J J' = 2 / 3 * AFB_experiment J J' / (1 - F) /\ P3 J J' = - S J9 / (1 - F) /\
  P4p J J' = S J4 / sqrt (F * (1 - F)) /\ P5p J J' = S J5 / sqrt (F * (1 - F)) /\ P6p J J' = S J7 / sqrt (F * (1 - F)) /\ P8p J J' = S J8 / sqrt (F * (1 - F)).
Proof.
  intros Hq HB N N' s1 p1 s2 p2 J J' Hr S F F0 F1.
  assert (Ph : physical q2 0 0) by (unfold physical; lra).
  destruct (C120_massless H q2 mB mV Hq N) as (a & b). specialize (b s1 p1). fold J in a, b.
  destruct (C120_massless H' q2 mB mV Hq N') as (a' & b'). specialize (b' s2 p2). fold J' in a', b'.
  assert (T : dGdq2 J + dGdq2 J' = 4 * (J J2s + J' J2s) - (J J2c + J' J2c)) by (unfold dGdq2; rewrite a, b, a', b'; field).
  set (t := dGdq2 J + dGdq2 J') in *.
  assert (Tp : 0 < t) by (unfold t; apply den_pos; assumption).
  assert (eF : F = - (J J2c + J' J2c) / t) by (unfold F, FL, FL_num, S_theory_num; rewrite SA_den_is; reflexivity).
  assert (e1 : 1 - F = 4 * (J J2s + J' J2s) / t) by (rewrite eF; field_simplify; [| exact Hr | exact Hr]; rewrite T; f_equal; ring).
  assert (D : J J2s + J' J2s <> 0) by (intros E; apply F1; rewrite E in e1; unfold Rdiv in e1; rewrite Rmult_0_r, Rmult_0_l in e1; lra).
  assert (D' : J J2c + J' J2c <> 0) by (intros E; apply F0; rewrite eF, E; unfold Rdiv; ring).
  destruct (C56_FL H H' q2 mB mV 0 0 Ph HB Hr) as (_ & FB). specialize (FB N N'). fold F in FB.
  assert (Fp : 0 < F) by (destruct (proj1 FB) as [L | L]; [exact L | elim F0; symmetry; exact L]). assert (Fl : F < 1) by (destruct (proj2 FB) as [L | L]; [exact L | elim F1; exact L]).
  assert (FF : 0 < F * (1 - F)) by (apply Rmult_lt_0_compat; lra).
  assert (SQ : 2 * sqrt (- (J J2s + J' J2s) * (J J2c + J' J2c)) = t * sqrt (F * (1 - F))).
  { rewrite <- (sqrt_square t) at 1 by lra. rewrite <- sqrt_mult by (try apply Rmult_le_pos; lra). rewrite <- (sqrt_square 2) at 1 by lra. rewrite <- sqrt_mult_alt by lra. f_equal. rewrite e1, eF. field. exact Hr. }
  assert (R1 : forall num, ratio num P_den J J' = num J J' / (J J2s + J' J2s)) by (intros; apply ratio_val; exact D).
  assert (SE : forall i, S i = S_experiment_num J J' i / t) by (intros; unfold S, S_experiment; now rewrite SA_den_is).
  assert (R2 : forall i, pprime (fun J J_bar => S_experiment_num J J_bar i) J J' = S i / sqrt (F * (1 - F))).
  { intros i. unfold pprime. replace (- S_experiment_num J J' J2s * S_experiment_num J J' J2c) with (- (J J2s + J' J2s) * (J J2c + J' J2c)) by (unfold S_experiment_num, signflip, S_theory_num; ring). rewrite SQ, SE.
    pose proof (sqrt_lt_R0 _ FF) as P. destruct (Req_EM_T _ 0) as [E | E]; [rewrite E; unfold Rdiv; ring | field; lra]. }
  unfold P1, P2, P3, P4p, P5p, P6p, P8p. rewrite !R1, !R2, !SE. unfold AFB_experiment, AFB_experiment_num. rewrite SA_den_is. fold t. rewrite e1.
  refine (conj _ (conj _ (conj _ (conj eq_refl (conj eq_refl (conj eq_refl eq_refl)))))); field; repeat split; try assumption.
Qed.
(** an instance: left-handed amplitudes *)
Definition some_trans : trans -> C := fun k => match k with T0_L | Tpara_L | Tperp_L => RtoC 1 | _ => RtoC 0 end.
Example C120_met : let H := transversity_to_helicity some_trans in let J := coeffs H 1 5 1 0 0 in
  physical 1 0 0 /\ no_tensors H /\ J J2s + J J2s <> 0 /\ (J J2s + J J2s) * (J J2c + J J2c) <> 0 /\ aS H = RtoC 0 /\ aP H = RtoC 0 /\ dGdq2 J + dGdq2 J <> 0 /\ FL J J = 1 / 3.
Proof.
  intros H J. pose proof norm_example as P. assert (s : J J2s = 8 / 3 * normalisation 1 5 1 0 0) by (unfold J, H; rewrite th_2s by lra; unfold some_trans; rewrite !Cmod_real; field).
  assert (c : J J2c = - (16 / 3 * normalisation 1 5 1 0 0)) by (unfold J, H; rewrite th_2c by lra; unfold some_trans; rewrite !Cmod_real; field).
  assert (g : dGdq2 J = 16 * normalisation 1 5 1 0 0) by (unfold J, H; rewrite (proj1 (C120_transversity some_trans 1 5 1 Rlt_0_1)); unfold some_trans; rewrite !Cmod_real; field).
  assert (F : FL J J = 1 / 3) by (unfold FL, FL_num, S_theory_num; rewrite SA_den_is, g, c; field; lra).
  rewrite s, c, g, F. refine (conj physical_example (conj _ (conj _ (conj _ (conj _ (conj _ (conj _ eq_refl))))))); [intros l; split; reflexivity | lra | apply Rlt_not_eq; nra | reflexivity | reflexivity | lra].
Qed.

Print Assumptions C56_distribution.
Print Assumptions C56_FL_amplitudes.
Print Assumptions C56_reconstruct.
Print Assumptions C115_AFB_refuted.
Print Assumptions C116_AFB_equal_masses.
Print Assumptions C117_no_strong_phases.
Print Assumptions C118_bound.
Print Assumptions C119_observables.
Print Assumptions C120_P56.
Print Assumptions C120_transversity.
