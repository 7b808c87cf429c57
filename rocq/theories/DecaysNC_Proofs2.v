(** * Proofs for the neutral-current observables: inequalities between quadratic expressions survive integration *)
From Coq Require Import Reals Lra.
From Coquelicot Require Import Coquelicot.
From Verif Require Import Base Basics_Model Basics_Proofs Angular_Model Angular_Spec Angular_Proofs Angular_Proofs2 Angular_Proofs3 Angular_Proofs4 Angular_Proofs5 Angular_Proofs6 Angular_Proofs7 Angular_Proofs8 Angular_Proofs9 Decays_Model Decays_Spec Decays_Proofs Decays_Proofs2 Decays_Proofs3 Decays_Proofs4 Decays_Proofs5 DecaysNC_Model DecaysNC_Spec DecaysNC_Proofs.
Local Open Scope R_scope.

Lemma dot3 (x y z a b c w : R) : 0 <= w -> x ^ 2 + y ^ 2 + z ^ 2 <= w ^ 2 -> a * x + b * y + c * z <= sqrt (a ^ 2 + b ^ 2 + c ^ 2) * w.
Proof.
  intros W L. set (n := sqrt _). assert (P : 0 <= a ^ 2 + b ^ 2 + c ^ 2) by (pose proof (pow2_ge_0 a); pose proof (pow2_ge_0 b); pose proof (pow2_ge_0 c); lra).
  assert (N : n ^ 2 = a ^ 2 + b ^ 2 + c ^ 2) by (apply pow2_sqrt; exact P). apply (cross3 a b c n x y z w); [apply sqrt_pos | exact W | rewrite N; lra | exact L].
Qed.
Lemma quad (A B c x y s a b : R) : 0 <= A -> 0 <= B -> 0 <= c -> x ^ 2 + y ^ 2 <= c * (A * B) -> 0 <= s ^ 2 * A + 2 * s * (a * x + b * y) + (a ^ 2 + b ^ 2) * c * B.
Proof.
  intros HA HB Hc L. pose proof (pow2_ge_0 a) as a2. pose proof (pow2_ge_0 b) as b2.
  assert (C : (a * x + b * y) ^ 2 <= (a ^ 2 + b ^ 2) * (c * (A * B))).
  { apply Rle_trans with ((a ^ 2 + b ^ 2) * (x ^ 2 + y ^ 2)); [pose proof (pow2_ge_0 (a * y - b * x)); lra | apply Rmult_le_compat_l; lra]. }
  destruct HA as [HA | <-].
  - apply (Rmult_le_reg_l A); [exact HA |]. rewrite Rmult_0_r.
    replace (A * (s ^ 2 * A + 2 * s * (a * x + b * y) + (a ^ 2 + b ^ 2) * c * B)) with ((s * A + (a * x + b * y)) ^ 2 + ((a ^ 2 + b ^ 2) * (c * (A * B)) - (a * x + b * y) ^ 2)) by ring.
    pose proof (pow2_ge_0 (s * A + (a * x + b * y))). lra.
  - replace (c * (0 * B)) with 0 in C by ring. rewrite Rmult_0_r in C. assert (Z : a * x + b * y = 0) by (pose proof (pow2_ge_0 (a * x + b * y)); apply Rsqr_0_uniq; unfold Rsqr; lra). rewrite Z, !Rmult_0_r, !Rplus_0_l.
    apply Rmult_le_pos; [apply Rmult_le_pos; lra | exact HB].
Qed.
Lemma quad_all (A B c x y : R) : 0 <= A -> 0 <= B -> 0 <= c -> (forall s, 0 <= s ^ 2 * A + 2 * s * (x * x + y * y) + (x ^ 2 + y ^ 2) * c * B) -> x ^ 2 + y ^ 2 <= c * (A * B).
Proof.
  intros HA HB Hc Q. set (n := x ^ 2 + y ^ 2). assert (N0 : 0 <= n) by (unfold n; pose proof (pow2_ge_0 x); pose proof (pow2_ge_0 y); lra).
  assert (Q' : forall s, 0 <= s ^ 2 * A + 2 * s * n + n * (c * B)) by (intros s; specialize (Q s); unfold n; replace (x * x + y * y) with (x ^ 2 + y ^ 2) in Q by ring; lra).
  assert (cB : 0 <= c * B) by now apply Rmult_le_pos.
  destruct N0 as [N0 | N0]; [| rewrite <- N0; apply Rmult_le_pos; [exact Hc | now apply Rmult_le_pos]].
  destruct HA as [HA | HA].
  - specialize (Q' (- n / A)). assert (E : (- n / A) ^ 2 * A + 2 * (- n / A) * n + n * (c * B) = n * (c * (A * B) - n) / A) by (field; lra). rewrite E in Q'.
    destruct (Rle_dec n (c * (A * B))) as [l | l]; [exact l | exfalso]. assert (T : n * (c * (A * B) - n) / A < 0); [| lra].
    unfold Rdiv. assert (0 < / A) by now apply Rinv_0_lt_compat. assert (n * (n - c * (A * B)) * / A > 0) by (apply Rmult_gt_0_compat; [apply Rmult_gt_0_compat; lra | lra]). lra.
  - specialize (Q' (- (c * B + 1))). rewrite <- HA in Q'. exfalso. assert (T : n * (c * B + 2) > 0) by (apply Rmult_gt_0_compat; lra). lra.
Qed.
Section CS.
  Variables (J J' : R -> jkey -> R) (a b : R).
  Hypotheses (P : forall k, int (fun q2 => J q2 k) a b) (P' : forall k, int (fun q2 => J' q2 k) a b) (L : a <= b).
  Notation I := (over J a b).
  Notation I' := (over J' a b).
  Lemma cs_three X Y Z W : linear X -> linear Y -> linear Z -> linear W ->
    (forall q2, a < q2 < b -> 0 <= W (J q2) (J' q2) /\ X (J q2) (J' q2) ^ 2 + Y (J q2) (J' q2) ^ 2 + Z (J q2) (J' q2) ^ 2 <= W (J q2) (J' q2) ^ 2) ->
    0 <= W I I' /\ X I I' ^ 2 + Y I I' ^ 2 + Z I I' ^ 2 <= W I I' ^ 2.
  Proof using P P' L.
    intros LX LY LZ LW H. set (x := X I I'). set (y := Y I I'). set (z := Z I I'). set (w := W I I'). set (n := sqrt (x ^ 2 + y ^ 2 + z ^ 2)).
    assert (W0 : 0 <= w) by (unfold w; apply linear_pos; try assumption; intros; now apply H). split; [exact W0 |].
    assert (P0 : 0 <= x ^ 2 + y ^ 2 + z ^ 2) by (pose proof (pow2_ge_0 x); pose proof (pow2_ge_0 y); pose proof (pow2_ge_0 z); lra).
    assert (N : n ^ 2 = x ^ 2 + y ^ 2 + z ^ 2) by (apply pow2_sqrt; exact P0). assert (n0 : 0 <= n) by apply sqrt_pos.
    assert (F : linear (fun J J' => 1 * (1 * (n * W J J' + (- x) * X J J') + (- y) * Y J J') + (- z) * Z J J')) by (apply linear_plus; [apply linear_plus; [apply linear_plus |] |]; assumption).
    assert (Q : 0 <= 1 * (1 * (n * w + (- x) * x) + (- y) * y) + (- z) * z).
    { apply (linear_pos J J' a b P P' _ F L). intros q2 q. destruct (H q2 q) as (h1 & h2). pose proof (dot3 _ _ _ x y z _ h1 h2) as D. fold n in D. lra. }
    assert (Q2 : n * n <= n * w) by lra. rewrite <- N. destruct n0 as [n0 | n0]; [| rewrite <- n0; pose proof (pow2_ge_0 w); lra].
    apply pow_incr. split; [lra |]. apply (Rmult_le_reg_l n); assumption.
  Qed.
  Lemma cs_two (c : R) X Y A B : 0 <= c -> linear X -> linear Y -> linear A -> linear B ->
    (forall q2, a < q2 < b -> 0 <= A (J q2) (J' q2) /\ 0 <= B (J q2) (J' q2) /\ X (J q2) (J' q2) ^ 2 + Y (J q2) (J' q2) ^ 2 <= c * (A (J q2) (J' q2) * B (J q2) (J' q2))) ->
    0 <= A I I' /\ 0 <= B I I' /\ X I I' ^ 2 + Y I I' ^ 2 <= c * (A I I' * B I I').
  Proof using P P' L.
    intros Hc LX LY LA LB H. set (x := X I I'). set (y := Y I I').
    assert (A0 : 0 <= A I I') by (apply linear_pos; try assumption; intros; now apply H). assert (B0 : 0 <= B I I') by (apply linear_pos; try assumption; intros; now apply H).
    refine (conj A0 (conj B0 _)). apply quad_all; try assumption. intros s.
    assert (F : linear (fun J J' => 1 * (1 * (s ^ 2 * A J J' + (2 * s * x) * X J J') + (2 * s * y) * Y J J') + ((x ^ 2 + y ^ 2) * c) * B J J')) by (apply linear_plus; [apply linear_plus; [apply linear_plus |] |]; assumption).
    assert (Q : 0 <= 1 * (1 * (s ^ 2 * A I I' + (2 * s * x) * x) + (2 * s * y) * y) + ((x ^ 2 + y ^ 2) * c) * B I I'); [| lra].
    apply (linear_pos J J' a b P P' _ F L). intros q2 q. destruct (H q2 q) as (h1 & h2 & h3). pose proof (quad _ _ c _ _ s x y h1 h2 Hc h3) as D. lra.
  Qed.
End CS.

(** ** the bounds at a point of the kinematic range *)
Lemma speed_beta (d : vll) (q2 : R) : vll_ok d -> thr d <= q2 -> speed2 q2 (l_ml d) (l_ml d) = beta2 d q2.
Proof. intros W L. pose proof (range_d d W). unfold speed2, beta2, triangle. field. lra. Qed.
Lemma beta_mono (d : vll) (a q2 : R) : vll_ok d -> thr d <= a -> a <= q2 -> 0 <= beta2 d a <= beta2 d q2.
Proof.
  intros W L1 L2. pose proof (range_d d W) as r. unfold beta2. fold (thr d). set (t := thr d) in *. split.
  - assert (t / a <= 1); [| lra]. apply (Rmult_le_reg_r a); [lra |]. unfold Rdiv. rewrite Rmult_assoc, Rinv_l by lra. lra.
  - assert (t / q2 <= t / a); [| lra]. apply Rmult_le_compat_l; [lra |]. apply Rinv_le_contravar; lra.
Qed.
Section Point.
  Variables (d : vll) (a q2 : R).
  Hypotheses (W : vll_ok d) (T : tensor_free d) (La : thr d <= a) (Lq : a <= q2) (Lt : q2 <= top d).
  Notation J := (Jv d q2).
  Notation J' := (Jv' d q2).
  Let Ph : physical q2 (l_ml d) (l_ml d).
  Proof using W La Lq. apply phys_d; [exact W | lra]. Qed.
  Let HB : 0 < l_mB d. Proof using W. apply W. Qed.
  Let N : no_tensors (l_h d q2). Proof using T La Lq Lt. apply T. lra. Qed.
  Let N' : no_tensors (l_hbar d q2). Proof using T La Lq Lt. apply T. lra. Qed.
  Let v := sqrt (beta2 d a).
  Lemma v_sq : v ^ 2 = beta2 d a.
  Proof using W La Lq. apply pow2_sqrt. destruct (beta_mono d a q2 W La Lq). lra. Qed.
  Lemma signs : 0 <= J J2s /\ 0 <= J' J2s /\ J J2c <= 0 /\ J' J2c <= 0.
  Proof using Ph HB N N'. refine (conj _ (conj _ (conj _ _))); [apply J2s_pos | apply J2s_pos | apply J2c_neg | apply J2c_neg]; assumption. Qed.
  Lemma one_369 (H : amps) : no_tensors H -> let K := angularcoeffs_general_v H q2 (l_mB d) (l_mV d) (l_ml d) (l_ml d) in K J3 ^ 2 + K J9 ^ 2 + (v * K J6s / 2) ^ 2 <= (2 * K J2s) ^ 2.
  Proof using Ph HB W La Lq.
    intros NH K. pose proof (bound_369 H q2 (l_mB d) (l_mV d) (l_ml d) (l_ml d) Ph HB NH) as B. fold K in B.
    assert (Lq' : thr d <= q2) by lra. rewrite (speed_beta d q2 W Lq') in B. destruct (beta_mono d a q2 W La Lq) as (b0 & b1).
    assert (E : sqrt (beta2 d q2) ^ 2 = beta2 d q2) by (apply pow2_sqrt; lra).
    assert (Q : (v * K J6s / 2) ^ 2 <= (sqrt (beta2 d q2) * K J6s / 2) ^ 2).
    { replace ((v * K J6s / 2) ^ 2) with (v ^ 2 * (K J6s / 2) ^ 2) by field. replace ((sqrt (beta2 d q2) * K J6s / 2) ^ 2) with (sqrt (beta2 d q2) ^ 2 * (K J6s / 2) ^ 2) by field. rewrite E, v_sq. apply Rmult_le_compat_r; [apply pow2_ge_0 | exact b1]. }
    lra.
  Qed.
  Lemma pt_369 : 0 <= 2 * (J J2s + J' J2s) /\ (1 * (J J3 + J' J3)) ^ 2 + (1 * (J J9 + J' J9)) ^ 2 + (v / 2 * (J J6s + J' J6s)) ^ 2 <= (2 * (J J2s + J' J2s)) ^ 2.
  Proof using Ph HB N N' W La Lq.
    destruct signs as (s & s' & _ & _). split; [lra |]. pose proof (one_369 _ N) as B. pose proof (one_369 _ N') as B'. cbv zeta in B, B'. fold J in B. fold J' in B'.
    assert (w : 0 <= 2 * J J2s) by lra. assert (w' : 0 <= 2 * J' J2s) by lra.
    pose proof (add3 _ _ _ _ _ _ _ _ w w' B B') as M. eapply Rle_trans; [| eapply Rle_trans; [exact M |]]; right; field.
  Qed.
  Lemma pt_48 : 0 <= 1 * (J J2s + J' J2s) /\ 0 <= -1 * (J J2c + J' J2c) /\ (1 * (J J4 + J' J4)) ^ 2 + (1 * (J J8 + J' J8)) ^ 2 <= 2 * (1 * (J J2s + J' J2s) * (-1 * (J J2c + J' J2c))).
  Proof using Ph HB N N'.
    destruct signs as (s & s' & t & t'). refine (conj _ (conj _ _)); [lra | lra |].
    pose proof (bound_48 _ _ _ (l_mV d) _ _ Ph HB N) as B. pose proof (bound_48 _ _ _ (l_mV d) _ _ Ph HB N') as B'. fold J in B. fold J' in B'.
    assert (M : (J J4 + J' J4) ^ 2 + (J J8 + J' J8) ^ 2 <= 2 * ((J J2s + J' J2s) * (- J J2c + - J' J2c))) by (apply add2; lra).
    eapply Rle_trans; [| eapply Rle_trans; [exact M |]]; right; ring.
  Qed.
  Hypothesis Sf : scalar_free d.
  Lemma one_57 (H : amps) : no_tensors H -> aS H = RtoC 0 -> aP H = RtoC 0 -> let K := angularcoeffs_general_v H q2 (l_mB d) (l_mV d) (l_ml d) (l_ml d) in (v * K J5) ^ 2 + (v * K J7) ^ 2 <= 8 * (K J2s * - K J2c).
  Proof using Ph HB W La Lq.
    intros NH s p K. assert (B : speed2 q2 (l_ml d) (l_ml d) * (K J5 ^ 2 + K J7 ^ 2) <= 8 * (K J2s * - K J2c)) by (apply bound_57; [exact Ph | exact HB | exact NH | unfold scalar, pseudo; rewrite s, p; split; apply Cmult_0_r]).
    assert (Lq' : thr d <= q2) by lra. rewrite (speed_beta d q2 W Lq') in B. destruct (beta_mono d a q2 W La Lq) as (b0 & b1).
    replace ((v * K J5) ^ 2 + (v * K J7) ^ 2) with (v ^ 2 * (K J5 ^ 2 + K J7 ^ 2)) by ring. rewrite v_sq. eapply Rle_trans; [| exact B]. apply Rmult_le_compat_r; [| exact b1]. pose proof (pow2_ge_0 (K J5)). pose proof (pow2_ge_0 (K J7)). lra.
  Qed.
  Lemma pt_57 : 0 <= 1 * (J J2s + J' J2s) /\ 0 <= -1 * (J J2c + J' J2c) /\ (v * (J J5 + J' J5)) ^ 2 + (v * (J J7 + J' J7)) ^ 2 <= 8 * (1 * (J J2s + J' J2s) * (-1 * (J J2c + J' J2c))).
  Proof using Ph HB N N' W La Lq Lt Sf.
    destruct signs as (s & s' & t & t'). refine (conj _ (conj _ _)); [lra | lra |].
    assert (I : thr d <= q2 <= top d) by lra. destruct (Sf q2 I) as ((s1 & p1) & (s2 & p2)).
    pose proof (one_57 _ N s1 p1) as B. pose proof (one_57 _ N' s2 p2) as B'. cbv zeta in B, B'. fold J in B. fold J' in B'.
    assert (M : (v * J J5 + v * J' J5) ^ 2 + (v * J J7 + v * J' J7) ^ 2 <= 8 * ((J J2s + J' J2s) * (- J J2c + - J' J2c))) by (apply add2; lra).
    eapply Rle_trans; [| eapply Rle_trans; [exact M |]]; right; ring.
  Qed.
End Point.
