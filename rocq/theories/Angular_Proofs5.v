(** * Proofs for the angular distributions: optimised observables, massless leptons *)
From Coq Require Import Reals Lra Psatz.
From Coquelicot Require Import Coquelicot.
From Verif Require Import Base Basics_Model Basics_Proofs Angular_Model Angular_Spec Angular_Proofs Angular_Proofs2 Angular_Proofs4.
Local Open Scope R_scope.

(** ** Cauchy-Schwarz inequalities *)
Lemma cs_pm (H : amps) : fst (X_pm H) ^ 2 + snd (X_pm H) ^ 2 + Y_pm H ^ 2 <= (trans_sq H / 2) ^ 2.
Proof.
  set (Z := ((aV H Hpl + aA H Hpl) * Cconj (aV H Hpl - aA H Hpl) - Cconj (aV H Hmi - aA H Hmi) * (aV H Hmi + aA H Hmi))%C).
  assert (E : (trans_sq H / 2) ^ 2 = fst (X_pm H) ^ 2 + snd (X_pm H) ^ 2 + Y_pm H ^ 2 + (fst Z ^ 2 + snd Z ^ 2) / 4).
  { unfold Z, trans_sq, X_pm, Y_pm, bil. destruct (aV H Hpl), (aV H Hmi), (aA H Hpl), (aA H Hmi). unfold Cminus, Cplus, Cmult, Cconj, Copp. cbn [fst snd]. field. }
  rewrite E. pose proof (pow2_ge_0 (fst Z)). pose proof (pow2_ge_0 (snd Z)). lra.
Qed.
Lemma cs4 (a1 a2 a3 a4 b1 b2 b3 b4 : C) :
  fst (a1 .* b1 + a2 .* b2 + a3 .* b3 + a4 .* b4)%C ^ 2 + snd (a1 .* b1 + a2 .* b2 + a3 .* b3 + a4 .* b4)%C ^ 2 <=
  (fst (a1 .* a1) + fst (a2 .* a2) + fst (a3 .* a3) + fst (a4 .* a4)) * (fst (b1 .* b1) + fst (b2 .* b2) + fst (b3 .* b3) + fst (b4 .* b4)).
Proof.
  set (m := fun a b c d : C => (a * d - b * c)%C).
  assert (E : (fst (a1 .* a1) + fst (a2 .* a2) + fst (a3 .* a3) + fst (a4 .* a4)) * (fst (b1 .* b1) + fst (b2 .* b2) + fst (b3 .* b3) + fst (b4 .* b4)) =
    fst (a1 .* b1 + a2 .* b2 + a3 .* b3 + a4 .* b4)%C ^ 2 + snd (a1 .* b1 + a2 .* b2 + a3 .* b3 + a4 .* b4)%C ^ 2
    + (fst (m a1 a2 b1 b2) ^ 2 + snd (m a1 a2 b1 b2) ^ 2) + (fst (m a1 a3 b1 b3) ^ 2 + snd (m a1 a3 b1 b3) ^ 2) + (fst (m a1 a4 b1 b4) ^ 2 + snd (m a1 a4 b1 b4) ^ 2)
    + (fst (m a2 a3 b2 b3) ^ 2 + snd (m a2 a3 b2 b3) ^ 2) + (fst (m a2 a4 b2 b4) ^ 2 + snd (m a2 a4 b2 b4) ^ 2) + (fst (m a3 a4 b3 b4) ^ 2 + snd (m a3 a4 b3 b4) ^ 2)).
  { unfold m, bil. destruct a1, a2, a3, a4, b1, b2, b3, b4. unfold Cminus, Cplus, Cmult, Cconj, Copp. cbn [fst snd]. ring. }
  rewrite E. assert (P : forall z : C, 0 <= fst z ^ 2 + snd z ^ 2) by (intros; apply Rplus_le_le_0_compat; apply pow2_ge_0).
  pose proof (P (m a1 a2 b1 b2)). pose proof (P (m a1 a3 b1 b3)). pose proof (P (m a1 a4 b1 b4)). pose proof (P (m a2 a3 b2 b3)). pose proof (P (m a2 a4 b2 b4)). pose proof (P (m a3 a4 b3 b4)). lra.
Qed.
Lemma conj_sq (z : C) : fst (Cconj z .* Cconj z) = fst (z .* z).
Proof. destruct z. unfold bil, Cmult, Cconj. cbn [fst snd]. ring. Qed.
Lemma opp_sq (z : C) : fst ((- z)%C .* (- z)%C) = fst (z .* z).
Proof. destruct z. unfold bil, Cmult, Copp, Cconj. cbn [fst snd]. ring. Qed.
Lemma conj_bil (a b : C) : Cconj a .* Cconj b = b .* a.
Proof. unfold bil. rewrite Cconj_conj. ring. Qed.
Lemma cs_X (H : amps) : fst (X_0 H) ^ 2 + snd (X_0 H) ^ 2 <= 2 * trans_sq H * long_sq H.
Proof.
  pose proof (cs4 (aV H Hpl) (Cconj (aV H Hmi)) (aA H Hpl) (Cconj (aA H Hmi)) (aV H H0) (Cconj (aV H H0)) (aA H H0) (Cconj (aA H H0))) as L.
  rewrite !conj_sq, !conj_bil in L. unfold X_0, trans_sq, long_sq.
  eapply Rle_trans; [exact L |]. right. ring.
Qed.
Lemma cs_Y (H : amps) : fst (Y_0 H) ^ 2 + snd (Y_0 H) ^ 2 <= 2 * trans_sq H * long_sq H.
Proof.
  pose proof (cs4 (aV H Hpl) (aA H Hpl) (- Cconj (aA H Hmi))%C (- Cconj (aV H Hmi))%C (aA H H0) (aV H H0) (Cconj (aV H H0)) (Cconj (aA H H0))) as L.
  rewrite !opp_sq, !conj_sq in L. replace (Y_0 H) with ((aV H Hpl .* aA H H0 + aA H Hpl .* aV H H0 + (- Cconj (aA H Hmi)) .* Cconj (aV H H0) + (- Cconj (aV H Hmi)) .* Cconj (aA H H0))%C).
  - eapply Rle_trans; [exact L |]. unfold trans_sq, long_sq. right. ring.
  - unfold Y_0. unfold bil. rewrite !Cconj_conj. ring.
Qed.
Lemma cross3 (x y z w x' y' z' w' : R) : 0 <= w -> 0 <= w' -> x ^ 2 + y ^ 2 + z ^ 2 <= w ^ 2 -> x' ^ 2 + y' ^ 2 + z' ^ 2 <= w' ^ 2 -> x * x' + y * y' + z * z' <= w * w'.
Proof.
  intros W W' L L'. apply sq_le; [now apply Rmult_le_pos |]. replace ((w * w') ^ 2) with (w ^ 2 * w' ^ 2) by ring.
  apply Rle_trans with ((x ^ 2 + y ^ 2 + z ^ 2) * (x' ^ 2 + y' ^ 2 + z' ^ 2)).
  - replace ((x ^ 2 + y ^ 2 + z ^ 2) * (x' ^ 2 + y' ^ 2 + z' ^ 2)) with ((x * x' + y * y' + z * z') ^ 2 + ((x * y' - y * x') ^ 2 + (x * z' - z * x') ^ 2 + (y * z' - z * y') ^ 2)) by ring.
    pose proof (pow2_ge_0 (x * y' - y * x')). pose proof (pow2_ge_0 (x * z' - z * x')). pose proof (pow2_ge_0 (y * z' - z * y')). lra.
  - apply Rmult_le_compat; try assumption; repeat apply Rplus_le_le_0_compat; apply pow2_ge_0.
Qed.
Lemma add3 (x y z w x' y' z' w' : R) : 0 <= w -> 0 <= w' -> x ^ 2 + y ^ 2 + z ^ 2 <= w ^ 2 -> x' ^ 2 + y' ^ 2 + z' ^ 2 <= w' ^ 2 ->
  (x + x') ^ 2 + (y + y') ^ 2 + (z + z') ^ 2 <= (w + w') ^ 2.
Proof. intros W W' L L'. pose proof (cross3 _ _ _ _ _ _ _ _ W W' L L'). lra. Qed.
Lemma add2 (c x y a b x' y' a' b' : R) : 0 <= c -> 0 <= a -> 0 <= b -> 0 <= a' -> 0 <= b' -> x ^ 2 + y ^ 2 <= c * (a * b) -> x' ^ 2 + y' ^ 2 <= c * (a' * b') ->
  (x + x') ^ 2 + (y + y') ^ 2 <= c * ((a + a') * (b + b')).
Proof.
  intros Hc A B A' B' L L'.
  assert (Q : 2 * (x * x' + y * y') <= c * (a * b' + a' * b)); [| lra].
  pose proof (Rmult_le_pos _ _ A B'). pose proof (Rmult_le_pos _ _ A' B). apply sq_le; [apply Rmult_le_pos; [assumption | lra] |].
  apply Rle_trans with (4 * ((x ^ 2 + y ^ 2) * (x' ^ 2 + y' ^ 2))).
  - pose proof (pow2_ge_0 (x * y' - y * x')). lra.
  - apply Rle_trans with (4 * (c * (a * b) * (c * (a' * b')))).
    + apply Rmult_le_compat_l; [lra |]. apply Rmult_le_compat; try assumption; apply Rplus_le_le_0_compat; apply pow2_ge_0.
    + replace ((c * (a * b' + a' * b)) ^ 2) with (4 * (c * (a * b) * (c * (a' * b'))) + (c * (a * b' - a' * b)) ^ 2) by ring. pose proof (pow2_ge_0 (c * (a * b' - a' * b))). lra.
Qed.

(** ** one decay without tensor amplitudes *)
Section One.
  Variables (H : amps) (q2 mB mV m1 m2 : R).
  Hypotheses (Ph : physical q2 m1 m2) (HB : 0 < mB) (NT : no_tensors H).
  Let J := angularcoeffs_general_v H q2 mB mV m1 m2.
  Definition speed2 := triangle q2 (m1 ^ 2) (m2 ^ 2) / q2 ^ 2.
  Lemma speed2_is s i k E1 E2 : kinematics q2 m1 m2 s i k E1 E2 -> speed2 = (2 * k / s) ^ 2.
  Proof using Ph.
    intros K. pose proof (triangle_pos _ _ _ Ph) as T. pose proof (lambda_triangle _ _ _ T) as E. destruct K as [Ks Kp _ _ _ _ _ _ _ Kla _ _].
    unfold speed2. rewrite <- E, Kla, <- Ks. field. lra.
  Qed.
  Lemma trans_pos : 0 <= trans_sq H.
  Proof using. unfold trans_sq. repeat first [apply bil_pos | apply Rplus_le_le_0_compat]. Qed.
  Lemma long_pos : 0 <= long_sq H.
  Proof using. unfold long_sq. repeat first [apply bil_pos | apply Rplus_le_le_0_compat]. Qed.
  Lemma J2s_pos : 0 <= J J2s.
  Proof using Ph HB NT.
    destruct (kin _ _ _ Ph) as (s & i & k & E1 & E2 & K). destruct Ph as (P1 & P2 & Q & _). pose proof (norm_pos q2 mB mV m1 m2 HB Q) as P.
    unfold J. rewrite (nt_2s H q2 mB mV m1 m2 s i k E1 E2 P1 P2 K NT). pose proof (pow2_ge_0 k). apply Rmult_le_pos; [apply Rmult_le_pos; lra | apply trans_pos].
  Qed.
  Lemma J2c_neg : J J2c <= 0.
  Proof using Ph HB NT.
    destruct (kin _ _ _ Ph) as (s & i & k & E1 & E2 & K). destruct Ph as (P1 & P2 & Q & _). pose proof (norm_pos q2 mB mV m1 m2 HB Q) as P.
    unfold J. rewrite (nt_2c H q2 mB mV m1 m2 s i k E1 E2 P1 P2 K NT).
    match goal with |- - ?a * ?b <= 0 => assert (0 <= a * b); [| lra] end.
    pose proof (pow2_ge_0 k). apply Rmult_le_pos; [apply Rmult_le_pos; lra | apply long_pos].
  Qed.
  Lemma bound_369 : J J3 ^ 2 + J J9 ^ 2 + (sqrt speed2 * J J6s / 2) ^ 2 <= (2 * J J2s) ^ 2.
  Proof using Ph HB NT.
    destruct (kin _ _ _ Ph) as (s & i & k & E1 & E2 & K). pose proof (speed2_is _ _ _ _ _ K) as Sp. destruct Ph as (P1 & P2 & Q & _).
    assert (Sq : sqrt speed2 ^ 2 = (2 * k / s) ^ 2). { rewrite <- Sp. apply pow2_sqrt. rewrite Sp. apply pow2_ge_0. }
    replace ((sqrt speed2 * J J6s / 2) ^ 2) with (sqrt speed2 ^ 2 * J J6s ^ 2 / 4) by field. rewrite Sq.
    unfold J. rewrite (nt_2s H q2 mB mV m1 m2 s i k E1 E2 P1 P2 K NT), (nt_3 H q2 mB mV m1 m2 s i k E1 E2 P1 P2 K NT), (nt_9 H q2 mB mV m1 m2 s i k E1 E2 P1 P2 K NT), (nt_6s H q2 mB mV m1 m2 s i k E1 E2 P1 P2 K NT).
    pose proof (cs_pm H) as L. set (N := 16 / 3 * normalisation q2 mB mV m1 m2). destruct K as [_ Kp _ _ _ _ _ _ _ _ _ _].
    replace ((- (N * (2 * k ^ 2)) * fst (X_pm H)) ^ 2 + (N * (2 * k ^ 2) * snd (X_pm H)) ^ 2 + (2 * k / s) ^ 2 * (- (N * (2 * k * s)) * Y_pm H) ^ 2 / 4)
      with (4 * (N * k ^ 2) ^ 2 * (fst (X_pm H) ^ 2 + snd (X_pm H) ^ 2 + Y_pm H ^ 2)) by (field; lra).
    replace ((2 * (N * (k ^ 2 / 2) * trans_sq H)) ^ 2) with (4 * (N * k ^ 2) ^ 2 * (trans_sq H / 2) ^ 2) by field.
    apply Rmult_le_compat_l; [| exact L]. pose proof (pow2_ge_0 (N * k ^ 2)). lra.
  Qed.
  Lemma bound_48 : J J4 ^ 2 + J J8 ^ 2 <= 2 * (J J2s * - J J2c).
  Proof using Ph HB NT.
    destruct (kin _ _ _ Ph) as (s & i & k & E1 & E2 & K). destruct Ph as (P1 & P2 & Q & _).
    unfold J. rewrite (nt_2s H q2 mB mV m1 m2 s i k E1 E2 P1 P2 K NT), (nt_2c H q2 mB mV m1 m2 s i k E1 E2 P1 P2 K NT), (nt_4 H q2 mB mV m1 m2 s i k E1 E2 P1 P2 K NT), (nt_8 H q2 mB mV m1 m2 s i k E1 E2 P1 P2 K NT).
    pose proof (cs_X H) as L. set (N := 16 / 3 * normalisation q2 mB mV m1 m2).
    replace ((- (N * k ^ 2) * fst (X_0 H)) ^ 2 + (N * k ^ 2 * snd (X_0 H)) ^ 2) with ((N * k ^ 2) ^ 2 * (fst (X_0 H) ^ 2 + snd (X_0 H) ^ 2)) by ring.
    replace (2 * (N * (k ^ 2 / 2) * trans_sq H * - (- (N * (2 * k ^ 2)) * long_sq H))) with ((N * k ^ 2) ^ 2 * (2 * trans_sq H * long_sq H)) by field.
    apply Rmult_le_compat_l; [apply pow2_ge_0 | exact L].
  Qed.
  Hypothesis NS : scalar q2 m1 m2 H = RtoC 0 /\ pseudo q2 m1 m2 H = RtoC 0.
  Lemma bound_57 : speed2 * (J J5 ^ 2 + J J7 ^ 2) <= 8 * (J J2s * - J J2c).
  Proof using Ph HB NT NS.
    destruct (kin _ _ _ Ph) as (s & i & k & E1 & E2 & K). rewrite (speed2_is _ _ _ _ _ K). destruct Ph as (P1 & P2 & Q & _).
    unfold J. rewrite (nt_2s H q2 mB mV m1 m2 s i k E1 E2 P1 P2 K NT), (nt_2c H q2 mB mV m1 m2 s i k E1 E2 P1 P2 K NT), (nt_5 H q2 mB mV m1 m2 s i k E1 E2 P1 P2 K NT NS), (nt_7 H q2 mB mV m1 m2 s i k E1 E2 P1 P2 K NT NS).
    pose proof (cs_Y H) as L. set (N := 16 / 3 * normalisation q2 mB mV m1 m2). destruct K as [_ Kp _ _ _ _ _ _ _ _ _ _].
    replace ((2 * k / s) ^ 2 * ((N * (k * s) * fst (Y_0 H)) ^ 2 + (- (N * (k * s)) * snd (Y_0 H)) ^ 2)) with (4 * (N * k ^ 2) ^ 2 * (fst (Y_0 H) ^ 2 + snd (Y_0 H) ^ 2)) by (field; lra).
    replace (8 * (N * (k ^ 2 / 2) * trans_sq H * - (- (N * (2 * k ^ 2)) * long_sq H))) with (4 * (N * k ^ 2) ^ 2 * (2 * trans_sq H * long_sq H)) by field.
    apply Rmult_le_compat_l; [| exact L]. pose proof (pow2_ge_0 (N * k ^ 2)). lra.
  Qed.
End One.

(** ** CP averages *)
Lemma ratio_val num den J J_bar : den J J_bar <> 0 -> ratio num den J J_bar = num J J_bar / den J J_bar.
Proof. intros H. unfold ratio. destruct (Req_EM_T _ _) as [E | E]; [rewrite E; field; assumption | reflexivity]. Qed.
Lemma pprime_val num J J_bar : - S_experiment_num J J_bar J2s * S_experiment_num J J_bar J2c <> 0 -> pprime num J J_bar = num J J_bar / (2 * sqrt (- S_experiment_num J J_bar J2s * S_experiment_num J J_bar J2c)).
Proof.
  intros H. unfold pprime. destruct (Req_EM_T _ _) as [E | E]; [rewrite E; unfold Rdiv; ring | reflexivity].
Qed.
Section Average.
  Variables (H H' : amps) (q2 mB mV m1 m2 : R).
  Hypotheses (Ph : physical q2 m1 m2) (HB : 0 < mB) (NT : no_tensors H) (NT' : no_tensors H').
  Let J := angularcoeffs_general_v H q2 mB mV m1 m2.
  Let J' := angularcoeffs_general_v H' q2 mB mV m1 m2.
  Lemma P123 : J J2s + J' J2s <> 0 -> P1 J J' ^ 2 + 4 * speed2 q2 m1 m2 * P2 J J' ^ 2 + 4 * P3 J J' ^ 2 <= 1.
  Proof using Ph HB NT NT'.
    intros D. unfold P1, P2, P3. rewrite !ratio_val by exact D. unfold S_experiment_num, signflip, P_den, S_theory_num.
    pose proof (J2s_pos H q2 mB mV m1 m2 Ph HB NT) as A. pose proof (J2s_pos H' q2 mB mV m1 m2 Ph HB NT') as A'.
    pose proof (bound_369 H q2 mB mV m1 m2 Ph HB NT) as L. pose proof (bound_369 H' q2 mB mV m1 m2 Ph HB NT') as L'. fold J in A, L. fold J' in A', L'.
    assert (W : 0 <= 2 * J J2s) by lra. assert (W' : 0 <= 2 * J' J2s) by lra.
    pose proof (add3 _ _ _ _ _ _ _ _ W W' L L') as M.
    assert (Sp : sqrt (speed2 q2 m1 m2) ^ 2 = speed2 q2 m1 m2).
    { apply pow2_sqrt. destruct (kin _ _ _ Ph) as (s & i & k & E1 & E2 & K). rewrite (speed2_is _ _ _ Ph _ _ _ _ _ K). apply pow2_ge_0. }
    set (d := J J2s + J' J2s) in *. replace (2 * J J2s + 2 * J' J2s) with (2 * d) in M by (unfold d; ring).
    assert (Dp : 0 < d) by (unfold d in *; lra).
    replace (((J J3 + J' J3) / 2 / d) ^ 2 + 4 * speed2 q2 m1 m2 * (- (J J6s + J' J6s) / 8 / d) ^ 2 + 4 * (- - (J J9 + J' J9) / 4 / d) ^ 2)
      with (((J J3 + J' J3) ^ 2 + (J J9 + J' J9) ^ 2 + (sqrt (speed2 q2 m1 m2) * J J6s / 2 + sqrt (speed2 q2 m1 m2) * J' J6s / 2) ^ 2) / (2 * d) ^ 2).
    - apply Rle_div_l; [apply pow_lt; lra | lra].
    - rewrite <- Sp at 3. field. lra.
  Qed.
  Let S2 := (J J2s + J' J2s) * - (J J2c + J' J2c).
  Lemma S2_pos : 0 <= S2.
  Proof using Ph HB NT NT'.
    pose proof (J2s_pos H q2 mB mV m1 m2 Ph HB NT) as A. pose proof (J2s_pos H' q2 mB mV m1 m2 Ph HB NT') as A'.
    pose proof (J2c_neg H q2 mB mV m1 m2 Ph HB NT) as B. pose proof (J2c_neg H' q2 mB mV m1 m2 Ph HB NT') as B'. fold J in A, B. fold J' in A', B'.
    unfold S2. apply Rmult_le_pos; lra.
  Qed.
  Lemma S2_sqrt : sqrt (- S_experiment_num J J' J2s * S_experiment_num J J' J2c) ^ 2 = S2.
  Proof using Ph HB NT NT'.
    unfold S_experiment_num, signflip, S_theory_num. replace (- (J J2s + J' J2s) * (J J2c + J' J2c)) with S2 by (unfold S2; ring). apply pow2_sqrt, S2_pos.
  Qed.
  Lemma P48 : (J J2s + J' J2s) * (J J2c + J' J2c) <> 0 -> P4p J J' ^ 2 + P8p J J' ^ 2 <= 1 / 2.
  Proof using Ph HB NT NT'.
    intros D. assert (D' : 0 < S2) by (pose proof S2_pos; unfold S2 in *; lra). pose proof S2_sqrt as Sq.
    unfold P4p, P8p. rewrite !pprime_val by (unfold S_experiment_num, signflip, S_theory_num; unfold S2 in *; lra).
    set (r := sqrt _) in *. assert (Hr : r <> 0) by (intros E; rewrite E in Sq; lra). unfold S_experiment_num, signflip, S_theory_num.
    pose proof (J2s_pos H q2 mB mV m1 m2 Ph HB NT) as A. pose proof (J2s_pos H' q2 mB mV m1 m2 Ph HB NT') as A'.
    pose proof (J2c_neg H q2 mB mV m1 m2 Ph HB NT) as B. pose proof (J2c_neg H' q2 mB mV m1 m2 Ph HB NT') as B'.
    pose proof (bound_48 H q2 mB mV m1 m2 Ph HB NT) as L. pose proof (bound_48 H' q2 mB mV m1 m2 Ph HB NT') as L'. fold J in A, B, L. fold J' in A', B', L'.
    assert (M : (J J4 + J' J4) ^ 2 + (J J8 + J' J8) ^ 2 <= 2 * ((J J2s + J' J2s) * (- J J2c + - J' J2c))) by (apply add2; lra).
    replace ((- (J J4 + J' J4) / (2 * r)) ^ 2 + ((J J8 + J' J8) / (2 * r)) ^ 2) with (((J J4 + J' J4) ^ 2 + (J J8 + J' J8) ^ 2) / (4 * r ^ 2)) by (field; assumption).
    rewrite Sq. apply Rle_div_l; [lra |]. unfold S2. lra.
  Qed.
  Hypotheses (NS : scalar q2 m1 m2 H = RtoC 0 /\ pseudo q2 m1 m2 H = RtoC 0) (NS' : scalar q2 m1 m2 H' = RtoC 0 /\ pseudo q2 m1 m2 H' = RtoC 0).
  Lemma P56 : (J J2s + J' J2s) * (J J2c + J' J2c) <> 0 -> speed2 q2 m1 m2 * (P5p J J' ^ 2 + P6p J J' ^ 2) <= 2.
  Proof using Ph HB NT NT' NS NS'.
    intros D. assert (D' : 0 < S2) by (pose proof S2_pos; unfold S2 in *; lra). pose proof S2_sqrt as Sq.
    unfold P5p, P6p. rewrite !pprime_val by (unfold S_experiment_num, signflip, S_theory_num; unfold S2 in *; lra).
    set (r := sqrt _) in *. assert (Hr : r <> 0) by (intros E; rewrite E in Sq; lra). unfold S_experiment_num, signflip, S_theory_num.
    pose proof (J2s_pos H q2 mB mV m1 m2 Ph HB NT) as A. pose proof (J2s_pos H' q2 mB mV m1 m2 Ph HB NT') as A'.
    pose proof (J2c_neg H q2 mB mV m1 m2 Ph HB NT) as B. pose proof (J2c_neg H' q2 mB mV m1 m2 Ph HB NT') as B'.
    pose proof (bound_57 H q2 mB mV m1 m2 Ph HB NT NS) as L. pose proof (bound_57 H' q2 mB mV m1 m2 Ph HB NT' NS') as L'. fold J in A, B, L. fold J' in A', B', L'.
    assert (Sp : sqrt (speed2 q2 m1 m2) ^ 2 = speed2 q2 m1 m2).
    { apply pow2_sqrt. destruct (kin _ _ _ Ph) as (s & i & k & E1 & E2 & K). rewrite (speed2_is _ _ _ Ph _ _ _ _ _ K). apply pow2_ge_0. }
    set (v := sqrt (speed2 q2 m1 m2)) in *. rewrite <- Sp in *.
    assert (M : (v * J J5 + v * J' J5) ^ 2 + (v * J J7 + v * J' J7) ^ 2 <= 8 * ((J J2s + J' J2s) * (- J J2c + - J' J2c))) by (apply add2; lra).
    replace (v ^ 2 * (((J J5 + J' J5) / (2 * r)) ^ 2 + (- (J J7 + J' J7) / (2 * r)) ^ 2)) with (((v * J J5 + v * J' J5) ^ 2 + (v * J J7 + v * J' J7) ^ 2) / (4 * r ^ 2)) by (field; assumption).
    rewrite Sq. apply Rle_div_l; [lra |]. unfold S2. lra.
  Qed.
End Average.
