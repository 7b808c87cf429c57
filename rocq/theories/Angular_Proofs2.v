(** * Proofs for the angular distributions: the distribution is a sum of squares *)
From Coq Require Import Reals Lra.
From Coquelicot Require Import Complex.
From Verif Require Import Base Basics_Model Basics_Proofs Angular_Model Angular_Spec Angular_Proofs.
Local Open Scope R_scope.

Lemma bil_plus_l (a b c : C) : ((a + b)%C .* c) = ((a .* c) + (b .* c))%C.
Proof. unfold bil. ring. Qed.
Lemma bil_plus_r (a b c : C) : (a .* (b + c)%C) = ((a .* b) + (a .* c))%C.
Proof. unfold bil. rewrite Cconj_plus. ring. Qed.
Lemma bil_real_l (r : R) (a b : C) : ((RtoC r * a)%C .* b) = (RtoC r * (a .* b))%C.
Proof. unfold bil. ring. Qed.
Lemma bil_real_r (r : R) (a b : C) : (a .* (RtoC r * b)%C) = (RtoC r * (a .* b))%C.
Proof. unfold bil. rewrite Cconj_mult, Cconj_real. ring. Qed.
Lemma mod_sum (x0 xp xm c s : R) (F0 Fp Fm : C) :
  Cmod (RtoC x0 * RtoC 1 * F0 + RtoC xp * (c, s) * Fp + RtoC xm * (c, (- s)%R) * Fm)%C ^ 2 =
  x0 ^ 2 * fst (F0 .* F0) + xp ^ 2 * (c ^ 2 + s ^ 2) * fst (Fp .* Fp) + xm ^ 2 * (c ^ 2 + s ^ 2) * fst (Fm .* Fm)
  + 2 * xp * xm * ((c ^ 2 - s ^ 2) * fst (Fp .* Fm) - 2 * c * s * snd (Fp .* Fm))
  + 2 * x0 * xp * (c * fst (Fp .* F0) - s * snd (Fp .* F0)) + 2 * x0 * xm * (c * fst (F0 .* Fm) - s * snd (F0 .* Fm)).
Proof.
  rewrite cmod_sq. destruct F0 as [a a'], Fp as [b b'], Fm as [d d']. unfold bil, Cplus, Cmult, Cconj, RtoC. cbn [fst snd]. ring.
Qed.
Lemma norm_is (q2 mB mV m1 m2 : R) :
  phase_space q2 mB (lambda_K (mB ^ 2) (mV ^ 2) q2) (lambda_K q2 (m1 ^ 2) (m2 ^ 2)) = normalisation q2 mB mV m1 m2.
Proof. unfold phase_space, normalisation. rewrite !sqrt_lambda. replace (2 ^ 9) with 512 by ring. reflexivity. Qed.
Lemma norm_pos (q2 mB mV m1 m2 : R) : 0 < mB -> 0 < q2 -> 0 <= normalisation q2 mB mV m1 m2.
Proof.
  intros Hm Hq. unfold normalisation. apply Rmult_le_pos; [apply Rmult_le_pos; apply sqrt_pos |].
  left. apply Rinv_0_lt_compat. pose proof PI_RGT_0. apply Rmult_lt_0_compat; [apply Rmult_lt_0_compat; [apply Rmult_lt_0_compat; [lra | apply pow_lt; lra] | apply pow_lt; lra] | lra].
Qed.

Section Distribution.
  Variables (H : amps) (q2 mB mV m1 m2 : R).
  Hypothesis Ph : physical q2 m1 m2.
  Lemma distribution_is (thK thl phi : R) :
    distribution (angularcoeffs_general_v H q2 mB mV m1 m2) thK thl phi =
    16 / 3 * normalisation q2 mB mV m1 m2 * helicity_sum q2 m1 m2 H thK thl phi.
  Proof.
    destruct (kin _ _ _ Ph) as (s & i & k & E1 & E2 & K). destruct Ph as (P1 & P2 & _ & _).
    pose proof (coeff_c_sum H q2 mB mV m1 m2 s i k E1 E2 P1 P2 K) as c1. pose proof (coeff_c_diff H q2 mB mV m1 m2 s i k E1 E2 P1 P2 K) as c2.
    pose proof (coeff_6c H q2 mB mV m1 m2 s i k E1 E2 P1 P2 K) as c3. pose proof (coeff_s_diff H q2 mB mV m1 m2 s i k E1 E2 P1 P2 K) as c4.
    pose proof (coeff_2s H q2 mB mV m1 m2 s i k E1 E2 P1 P2 K) as c5. pose proof (coeff_6s H q2 mB mV m1 m2 s i k E1 E2 P1 P2 K) as c6.
    pose proof (coeff_3 H q2 mB mV m1 m2 s i k E1 E2 P1 P2 K) as c7. pose proof (coeff_9 H q2 mB mV m1 m2 s i k E1 E2 P1 P2 K) as c8.
    pose proof (coeff_4 H q2 mB mV m1 m2 s i k E1 E2 P1 P2 K) as c9. pose proof (coeff_8 H q2 mB mV m1 m2 s i k E1 E2 P1 P2 K) as c10.
    pose proof (coeff_5 H q2 mB mV m1 m2 s i k E1 E2 P1 P2 K) as c11. pose proof (coeff_7 H q2 mB mV m1 m2 s i k E1 E2 P1 P2 K) as c12.
    rewrite norm_is in *. clear K P1 P2 Ph s i k E1 E2.
    set (J := angularcoeffs_general_v H q2 mB mV m1 m2) in *. set (N := normalisation q2 mB mV m1 m2) in *. clearbody J N.
    unfold helicity_sum, over_helicities, azimuth. cbn [decayV d_flip d_same]. cbv zeta.
    set (fp := flip q2 m1 m2 H 1) in *. set (fm := flip q2 m1 m2 H (-1)) in *. set (n := same_v q2 m1 m2 H) in *. set (m := same_a q2 m1 m2 H) in *.
    set (S' := scalar q2 m1 m2 H) in *. set (P' := pseudo q2 m1 m2 H) in *. clearbody fp fm n m S' P'.
    set (cK := cos thK). set (sK := sin thK). set (cl := cos thl). set (sl := sin thl). set (c := cos phi). set (t := sin phi).
    assert (T : forall (F0 Fp Fm Z : C), (RtoC (cK * cl)%R * RtoC 1 * F0 + RtoC (- sK / sqrt 2 * (- sl / sqrt 2))%R * (c, t) * Fp + RtoC (sK / sqrt 2 * (sl / sqrt 2))%R * (c, (- t)%R) * Fm + RtoC cK * Z)%C
      = (RtoC cK * RtoC 1 * (RtoC cl * F0 + Z) + RtoC (- sK / sqrt 2 * (- sl / sqrt 2))%R * (c, t) * Fp + RtoC (sK / sqrt 2 * (sl / sqrt 2))%R * (c, (- t)%R) * Fm)%C).
    { intros. rewrite (RtoC_mult cK cl). ring. }
    rewrite !T. clear T. rewrite !mod_sum. rewrite ?bil_plus_l, ?bil_plus_r, ?bil_plus_l, ?bil_real_l, ?bil_real_r, ?bil_real_l.
    pull. rewrite !fst_plus, ?fst_minus, ?snd_plus, ?snd_minus, ?fst_plus, ?snd_plus, ?fst_minus, ?snd_minus in *.
    rewrite (proj1 (bil_swap (n H0) S')), (proj1 (bil_swap (m H0) P')).
    unfold distribution. fold cK sK cl sl c t.
    replace (cos (2 * thl)) with (2 * cl ^ 2 - 1) by (unfold cl; rewrite cos_2a_cos; ring).
    replace (sin (2 * thl)) with (2 * sl * cl) by (unfold sl, cl; rewrite sin_2a; ring).
    replace (sin (2 * thK)) with (2 * sK * cK) by (unfold sK, cK; rewrite sin_2a; ring).
    replace (cos (2 * phi)) with (c ^ 2 - t ^ 2) by (unfold c, t; rewrite cos_2a; ring).
    replace (sin (2 * phi)) with (2 * t * c) by (unfold t, c; rewrite sin_2a; ring).
    assert (h1 : sl * sl = 1 - cl * cl) by (pose proof (sin2_cos2 thl) as E; unfold Rsqr in E; unfold sl, cl; lra).
    assert (h3 : t * t = 1 - c * c) by (pose proof (sin2_cos2 phi) as E; unfold Rsqr in E; unfold c, t; lra).
    assert (h4 : sqrt 2 * sqrt 2 = 2) by (apply sqrt_sqrt; lra).
    assert (h5 : / sqrt 2 = sqrt 2 / 2) by (rewrite <- h4 at 3; field; apply Rgt_not_eq, sqrt_lt_R0; lra).
    clearbody cK sK cl sl c t. unfold Rdiv. rewrite h5. clear h5. set (r := sqrt 2) in *. clearbody r.
    match type of c1 with _ = ?A => match type of c2 with _ = ?B => assert (e1 : J J1c = (A + B) / 2) by lra; assert (e2 : J J2c = (A - B) / 2) by lra end end.
    match type of c4 with _ = ?A => match type of c5 with _ = ?B => assert (e3 : J J1s = A + B / 2) by lra; assert (e4 : J J2s = B / 2) by lra end end.
    match type of c9 with _ = ?A => assert (e5 : J J4 = A / 4) by lra end. match type of c10 with _ = ?A => assert (e6 : J J8 = A / 4) by lra end.
    match type of c11 with _ = ?A => assert (e7 : J J5 = A / 2) by lra end. match type of c12 with _ = ?A => assert (e8 : J J7 = A / 2) by lra end.
    rewrite e1, e2, e3, e4, e5, e6, e7, e8, c3, c6, c7, c8. clear c1 c2 c3 c4 c5 c6 c7 c8 c9 c10 c11 c12 e1 e2 e3 e4 e5 e6 e7 e8.
    Time field [h1 h3 h4].
  Qed.
End Distribution.
