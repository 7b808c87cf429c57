(** * Proofs for the angular distributions: kinematics and the helicity decomposition of the coefficients *)
From Coq Require Import Reals Lra.
From Coquelicot Require Import Complex.
From Verif Require Import Base Basics_Model Basics_Proofs Angular_Model Angular_Spec.
Local Open Scope R_scope.

Lemma lambda_triangle (x y z : R) : 0 <= triangle x y z -> lambda_K x y z = triangle x y z.
Proof.
  intros H. unfold lambda_K. replace (x ^ 2 + y ^ 2 + z ^ 2 - 2 * (x * y + y * z + x * z)) with (triangle x y z) by (unfold triangle; ring).
  destruct (Rlt_dec _ 0); [lra | reflexivity].
Qed.
Lemma sqrt_lambda (x y z : R) : sqrt (lambda_K x y z) = sqrt (triangle x y z).
Proof.
  destruct (Rle_dec 0 (triangle x y z)) as [H | H]; [now rewrite lambda_triangle |].
  unfold lambda_K. replace (x ^ 2 + y ^ 2 + z ^ 2 - 2 * (x * y + y * z + x * z)) with (triangle x y z) by (unfold triangle; ring).
  destruct (Rlt_dec _ 0); [| lra]. rewrite sqrt_0. symmetry. apply sqrt_neg_0. lra.
Qed.
Lemma triangle_pos (q2 m1 m2 : R) : physical q2 m1 m2 -> 0 <= triangle q2 (m1 ^ 2) (m2 ^ 2).
Proof.
  intros (A & B & Q & T). replace (triangle q2 (m1 ^ 2) (m2 ^ 2)) with ((q2 - (m1 + m2) ^ 2) * (q2 - (m1 - m2) ^ 2)) by (unfold triangle; ring).
  apply Rmult_le_pos; [lra |]. assert (0 <= m1 * m2) by now apply Rmult_le_pos. nra.
Qed.

(** the kinematics of the lepton pair *)
Record kinematics (q2 m1 m2 s i k E1 E2 : R) : Prop := {
  k_s : s ^ 2 = q2; k_s_pos : 0 < s; k_i : s * i = 1; k_k : 0 <= k;
  k_sum : E1 + E2 = s; k_E1 : E1 ^ 2 = m1 ^ 2 + k ^ 2; k_E2 : E2 ^ 2 = m2 ^ 2 + k ^ 2; k_m1 : m1 <= E1; k_m2 : m2 <= E2;
  k_la : lambda_K q2 (m1 ^ 2) (m2 ^ 2) = 4 * k ^ 2 * s ^ 2;
  k_energy1 : energy q2 m1 m2 = E1; k_energy2 : energy q2 m2 m1 = E2 }.
Lemma sq_le (x y : R) : 0 <= y -> x ^ 2 <= y ^ 2 -> x <= y.
Proof. intros H L. apply Rsqr_incr_0_var; [unfold Rsqr; lra | exact H]. Qed.
Lemma kin (q2 m1 m2 : R) : physical q2 m1 m2 -> exists s i k E1 E2, kinematics q2 m1 m2 s i k E1 E2.
Proof.
  intros P. pose proof (triangle_pos _ _ _ P) as T. destruct P as (A & B & Q & L).
  pose proof (sqrt_lt_R0 _ Q) as S0. pose proof (sqrt_sqrt q2 (Rlt_le _ _ Q)) as SS.
  pose proof (sqrt_sqrt _ T) as TT. pose proof (sqrt_pos (triangle q2 (m1 ^ 2) (m2 ^ 2))) as Tp.
  remember (sqrt q2) as s eqn:Es. remember (sqrt (triangle q2 (m1 ^ 2) (m2 ^ 2))) as t eqn:Et. set (k := t / (2 * s)).
  assert (K : 0 <= k). { unfold k. apply Rmult_le_pos; [exact Tp |]. left. apply Rinv_0_lt_compat. lra. }
  assert (K2 : 4 * k ^ 2 * s ^ 2 = triangle q2 (m1 ^ 2) (m2 ^ 2)). { rewrite <- TT. unfold k. field. lra. }
  assert (En : forall a b, triangle q2 (a ^ 2) (b ^ 2) = 4 * k ^ 2 * s ^ 2 -> energy q2 a b ^ 2 = a ^ 2 + k ^ 2).
  { intros a b E. apply Rmult_eq_reg_r with (4 * s ^ 2); [| pose proof (pow_lt s 2 S0); lra].
    replace ((a ^ 2 + k ^ 2) * (4 * s ^ 2)) with (4 * a ^ 2 * s ^ 2 + 4 * k ^ 2 * s ^ 2) by ring. rewrite <- E.
    unfold energy, triangle. rewrite <- Es. rewrite <- SS. field. lra. }
  assert (E1q := En m1 m2 (eq_sym K2)).
  assert (E2q : energy q2 m2 m1 ^ 2 = m2 ^ 2 + k ^ 2). { apply En. rewrite K2. unfold triangle. ring. }
  assert (P12 : 0 <= m1 * m2) by now apply Rmult_le_pos.
  assert (En1 : 0 <= energy q2 m1 m2). { unfold energy. rewrite <- Es. apply Rmult_le_pos; [nra |]. left. apply Rinv_0_lt_compat. lra. }
  assert (En2 : 0 <= energy q2 m2 m1). { unfold energy. rewrite <- Es. apply Rmult_le_pos; [nra |]. left. apply Rinv_0_lt_compat. lra. }
  exists s, (/ s), k, (energy q2 m1 m2), (energy q2 m2 m1). split; try assumption; try reflexivity.
  - rewrite <- SS. ring.
  - field. lra.
  - unfold energy. rewrite <- Es. rewrite <- SS. field. lra.
  - apply sq_le; [assumption |]. rewrite E1q. pose proof (pow2_ge_0 k). lra.
  - apply sq_le; [assumption |]. rewrite E2q. pose proof (pow2_ge_0 k). lra.
  - rewrite lambda_triangle by assumption. now rewrite K2.
Qed.

(** the products of the spinor factors *)
Record products (q2 m1 m2 k E1 E2 : R) : Prop := {
  p_vTvT : vT q2 m1 m2 * vT q2 m1 m2 = 2 * (E1 * E2 + m1 * m2 + k * k);
  p_vLvL : vL q2 m1 m2 * vL q2 m1 m2 = 2 * (E1 * E2 + m1 * m2 - k * k);
  p_aTaT : aT_ q2 m1 m2 * aT_ q2 m1 m2 = 2 * (E1 * E2 - m1 * m2 + k * k);
  p_aLaL : aL q2 m1 m2 * aL q2 m1 m2 = 2 * (E1 * E2 - m1 * m2 - k * k);
  p_vTaT : vT q2 m1 m2 * aT_ q2 m1 m2 = 2 * k * (E1 + E2);
  p_vLaL : vL q2 m1 m2 * aL q2 m1 m2 = 2 * k * (E1 - E2);
  p_vTaL : vT q2 m1 m2 * aL q2 m1 m2 = 2 * k * (m1 - m2);
  p_vLaT : vL q2 m1 m2 * aT_ q2 m1 m2 = 2 * k * (m1 + m2);
  p_vTvL : vT q2 m1 m2 * vL q2 m1 m2 = 2 * (m1 * E2 + m2 * E1);
  p_aTaL : aT_ q2 m1 m2 * aL q2 m1 m2 = 2 * (m1 * E2 - m2 * E1) }.
Lemma prods (q2 m1 m2 s i k E1 E2 : R) : 0 <= m1 -> 0 <= m2 -> kinematics q2 m1 m2 s i k E1 E2 -> products q2 m1 m2 k E1 E2.
Proof.
  intros A B K. destruct K as [_ _ _ Hk _ HE1 HE2 L1 L2 _ e1 e2].
  assert (U1 : u1 q2 m1 m2 * u1 q2 m1 m2 = E1 + m1). { unfold u1. rewrite e1. apply sqrt_sqrt. lra. }
  assert (W1 : w1 q2 m1 m2 * w1 q2 m1 m2 = E1 - m1). { unfold w1. rewrite e1. apply sqrt_sqrt. lra. }
  assert (U2 : u2 q2 m1 m2 * u2 q2 m1 m2 = E2 + m2). { unfold u2. rewrite e2. apply sqrt_sqrt. lra. }
  assert (W2 : w2 q2 m1 m2 * w2 q2 m1 m2 = E2 - m2). { unfold w2. rewrite e2. apply sqrt_sqrt. lra. }
  assert (N1 : u1 q2 m1 m2 * w1 q2 m1 m2 = k).
  { unfold u1, w1. rewrite e1, <- sqrt_mult by lra. replace ((E1 + m1) * (E1 - m1)) with (k * k) by (apply (f_equal (fun x => x - m1 ^ 2)) in HE1; lra). now apply sqrt_square. }
  assert (N2 : u2 q2 m1 m2 * w2 q2 m1 m2 = k).
  { unfold u2, w2. rewrite e2, <- sqrt_mult by lra. replace ((E2 + m2) * (E2 - m2)) with (k * k) by lra. now apply sqrt_square. }
  split; unfold vT, vL, aT_, aL; ring [U1 W1 U2 W2 N1 N2].
Qed.


(** ** Sesquilinear products *)
Definition bil (a b : C) : C := (a * Cconj b)%C.
Infix ".*" := bil (at level 40).
Lemma bil_swap (a b : C) : fst (b .* a) = fst (a .* b) /\ snd (b .* a) = - snd (a .* b).
Proof. destruct a, b. unfold bil, Cmult, Cconj. cbn [fst snd]. split; ring. Qed.
Lemma mod_bil (z : C) : Cmod z ^ 2 = fst (z .* z).
Proof. rewrite cmod_sq. destruct z. unfold bil, Cmult, Cconj. cbn [fst snd]. ring. Qed.
Lemma bil_self (z : C) : snd (z .* z) = 0.
Proof. destruct z. unfold bil, Cmult, Cconj. cbn [fst snd]. ring. Qed.
Lemma fst_plus (a b : C) : fst (a + b)%C = fst a + fst b. Proof. reflexivity. Qed.
Lemma snd_plus (a b : C) : snd (a + b)%C = snd a + snd b. Proof. reflexivity. Qed.
Lemma fst_opp (a : C) : fst (- a)%C = - fst a. Proof. reflexivity. Qed.
Lemma snd_opp (a : C) : snd (- a)%C = - snd a. Proof. reflexivity. Qed.
Lemma fst_minus (a b : C) : fst (a - b)%C = fst a - fst b. Proof. reflexivity. Qed.
Lemma snd_minus (a b : C) : snd (a - b)%C = snd a - snd b. Proof. reflexivity. Qed.
Lemma fst_real (r : R) (z : C) : fst (RtoC r * z)%C = r * fst z.
Proof. unfold Cmult, RtoC. cbn [fst snd]. ring. Qed.
Lemma snd_real (r : R) (z : C) : snd (RtoC r * z)%C = r * snd z.
Proof. unfold Cmult, RtoC. cbn [fst snd]. ring. Qed.
Lemma fst_i (z : C) : fst (Ci * z)%C = - snd z.
Proof. unfold Cmult, Ci. cbn [fst snd]. ring. Qed.
Lemma snd_i (z : C) : snd (Ci * z)%C = fst z.
Proof. unfold Cmult, Ci. cbn [fst snd]. ring. Qed.
Lemma Cdiv_real (z : C) (r : R) : r <> 0 -> (z / RtoC r)%C = (z * RtoC (/ r))%C.
Proof. intros H. unfold Cdiv. now rewrite RtoC_inv. Qed.
Lemma Ci_sq : (Ci * Ci)%C = (- RtoC 1)%C.
Proof. unfold Ci, Cmult, Copp, RtoC. cbn [fst snd]. f_equal; ring. Qed.
Lemma Cconj_i : Cconj Ci = (- Ci)%C.
Proof. unfold Ci, Cconj, Copp. cbn [fst snd]. f_equal; ring. Qed.
Lemma Cconj_opp (z : C) : Cconj (- z)%C = (- Cconj z)%C.
Proof. unfold Cconj, Copp. cbn [fst snd]. reflexivity. Qed.
Lemma Cconj_real (r : R) : Cconj (RtoC r) = RtoC r.
Proof. unfold Cconj, RtoC. cbn [fst snd]. f_equal; ring. Qed.
Lemma root2 : (RtoC (sqrt 2) * RtoC (sqrt 2))%C = (RtoC 1 + RtoC 1)%C.
Proof. rewrite <- RtoC_mult, sqrt_sqrt, <- RtoC_plus by lra. reflexivity. Qed.
Lemma two_C : RtoC 2 = (RtoC 1 + RtoC 1)%C. Proof. now rewrite <- RtoC_plus. Qed.
Lemma mone_C : RtoC (-1) = (- RtoC 1)%C. Proof. now rewrite <- RtoC_opp. Qed.
Ltac pull := repeat first [rewrite fst_plus | rewrite snd_plus | rewrite fst_minus | rewrite snd_minus | rewrite fst_opp | rewrite snd_opp |
  rewrite fst_real | rewrite snd_real | rewrite fst_i | rewrite snd_i].

Section Bilinear.
  Variables (H : amps) (q2 m1 m2 : R).
  Let f := flip q2 m1 m2 H.
  Let n := same_v q2 m1 m2 H.
  Let m := same_a q2 m1 m2 H.
  Let S' := scalar q2 m1 m2 H.
  Let P' := pseudo q2 m1 m2 H.
  Local Notation xT := (vT q2 m1 m2).
  Local Notation xL := (vL q2 m1 m2).
  Local Notation yT := (aT_ q2 m1 m2).
  Local Notation yL := (aL q2 m1 m2).
  Ltac go := rewrite ?RtoC_mult, ?two_C, ?mone_C; unfold bil; unfold Cminus; repeat first [rewrite Cconj_plus | rewrite Cconj_opp | rewrite Cconj_mult | rewrite Cconj_i | rewrite Cconj_real]; ring [Ci_sq root2].
  Lemma flip_even (l l' : hel) : (f 1 l .* f 1 l' + f (-1) l .* f (-1) l')%C =
    (RtoC 2 * (RtoC (xT * xT)%R * (aV H l .* aV H l') + RtoC 2 * (RtoC 2 * (RtoC (xL * xL)%R * (aTt H l .* aTt H l')))
      + RtoC 2 * (Ci * (RtoC (xT * xL)%R * (aTt H l .* aV H l' - aV H l .* aTt H l')))
      + RtoC (yT * yT)%R * (aA H l .* aA H l') + RtoC 2 * (RtoC (yL * yL)%R * (aT H l .* aT H l'))
      + RtoC (sqrt 2) * (Ci * (RtoC (yT * yL)%R * (aT H l .* aA H l' - aA H l .* aT H l')))))%C.
  Proof using. unfold f, flip. go. Qed.
  Lemma flip_odd (l l' : hel) : (f 1 l .* f 1 l' - f (-1) l .* f (-1) l')%C =
    (- (RtoC 2 * (RtoC (xT * yT)%R * (aV H l .* aA H l' + aA H l .* aV H l')
      + RtoC (sqrt 2) * (Ci * (RtoC (xT * yL)%R * (aT H l .* aV H l' - aV H l .* aT H l')))
      + RtoC 2 * (Ci * (RtoC (xL * yT)%R * (aTt H l .* aA H l' - aA H l .* aTt H l')))
      + RtoC 2 * (RtoC (sqrt 2) * (RtoC (xL * yL)%R * (aTt H l .* aT H l' + aT H l .* aTt H l'))))))%C.
  Proof using. unfold f, flip. go. Qed.
  Lemma same_v_bil (l l' : hel) : (n l .* n l')%C =
    (RtoC (xL * xL)%R * (aV H l .* aV H l') + RtoC 2 * (RtoC 2 * (RtoC (xT * xT)%R * (aTt H l .* aTt H l')))
      + RtoC 2 * (Ci * (RtoC (xT * xL)%R * (aTt H l .* aV H l' - aV H l .* aTt H l'))))%C.
  Proof using. unfold n, same_v. go. Qed.
  Lemma same_a_bil (l l' : hel) : (m l .* m l')%C =
    (RtoC (yL * yL)%R * (aA H l .* aA H l') + RtoC 2 * (RtoC (yT * yT)%R * (aT H l .* aT H l'))
      + RtoC (sqrt 2) * (Ci * (RtoC (yT * yL)%R * (aT H l .* aA H l' - aA H l .* aT H l'))))%C.
  Proof using. unfold m, same_a. go. Qed.
  Lemma scal_bil : (S' .* S')%C = (RtoC (yT * yT)%R * (aS H .* aS H))%C.
  Proof using. unfold S', scalar. go. Qed.
  Lemma pseudo_bil : (P' .* P')%C = (RtoC (xT * xT)%R * (aP H .* aP H))%C.
  Proof using. unfold P', pseudo. go. Qed.
  Lemma scal_same_l (l : hel) : (n l .* S')%C = (RtoC (xL * yT)%R * (aV H l .* aS H) + RtoC 2 * (Ci * (RtoC (xT * yT)%R * (aTt H l .* aS H))))%C.
  Proof using. unfold S', n, scalar, same_v. go. Qed.
  Lemma scal_same_r (l : hel) : (S' .* n l)%C = (RtoC (xL * yT)%R * (aS H .* aV H l) - RtoC 2 * (Ci * (RtoC (xT * yT)%R * (aS H .* aTt H l))))%C.
  Proof using. unfold S', n, scalar, same_v. go. Qed.
  Lemma pseudo_same_l (l : hel) : (m l .* P')%C = (RtoC (xT * yL)%R * (aA H l .* aP H) + RtoC (sqrt 2) * (Ci * (RtoC (xT * yT)%R * (aT H l .* aP H))))%C.
  Proof using. unfold P', m, pseudo, same_a. go. Qed.
  Lemma pseudo_same_r (l : hel) : (P' .* m l)%C = (RtoC (xT * yL)%R * (aP H .* aA H l) - RtoC (sqrt 2) * (Ci * (RtoC (xT * yT)%R * (aP H .* aT H l))))%C.
  Proof using. unfold P', m, pseudo, same_a. go. Qed.
End Bilinear.

(** the twelve coefficients in terms of the amplitudes for definite lepton helicities *)
Section Coefficients.
  Variables (H : amps) (q2 mB mV m1 m2 s i k E1 E2 : R).
  Hypotheses (Pm1 : 0 <= m1) (Pm2 : 0 <= m2) (K : kinematics q2 m1 m2 s i k E1 E2).
  Let J := angularcoeffs_general_v H q2 mB mV m1 m2.
  Let N := phase_space q2 mB (lambda_K (mB ^ 2) (mV ^ 2) q2) (lambda_K q2 (m1 ^ 2) (m2 ^ 2)).
  Let f := flip q2 m1 m2 H.
  Let n := same_v q2 m1 m2 H.
  Let m := same_a q2 m1 m2 H.
  Let S' := scalar q2 m1 m2 H.
  Let P' := pseudo q2 m1 m2 H.
  Lemma E_pos : 0 <= E1 /\ 0 <= E2.
  Proof using K Pm1 Pm2. destruct K. lra. Qed.
  Lemma his : / s = i. Proof using K. destruct K as [Ks Kp Ki _ _ _ _ _ _ _ _ _]. apply Rmult_eq_reg_l with s; [| lra]. rewrite Ki. field. lra. Qed.
  Lemma hiq : / q2 = i * i. Proof using K. rewrite <- his. destruct K as [Ks Kp _ _ _ _ _ _ _ _ _ _]. rewrite <- Ks. field. lra. Qed.
  Lemma hiq4 : / (4 * q2) = / 4 * (i * i). Proof using K. rewrite <- his. destruct K as [Ks Kp _ _ _ _ _ _ _ _ _ _]. rewrite <- Ks. field. lra. Qed.
  Lemma hsq : sqrt q2 = s. Proof using K. destruct K as [Ks Kp _ _ _ _ _ _ _ _ _ _]. rewrite <- Ks. apply sqrt_pow2. lra. Qed.
  Lemma hsla : sqrt (lambda_K q2 (m1 ^ 2) (m2 ^ 2)) = 2 * k * s.
  Proof using K. destruct K as [Ks Kp _ Kk _ _ _ _ _ Kla _ _]. rewrite Kla. replace (4 * k ^ 2 * s ^ 2) with ((2 * k * s) ^ 2) by ring. apply sqrt_pow2. apply Rmult_le_pos; lra. Qed.
  Lemma hE1 : sqrt (m1 ^ 2 + lambda_K q2 (m1 ^ 2) (m2 ^ 2) / (4 * q2)) = E1.
  Proof using K Pm1 Pm2.
    destruct E_pos as [e _]. destruct K as [Ks Kp _ Kk _ KE1 _ _ _ Kla _ _]. rewrite Kla, <- Ks.
    replace (m1 ^ 2 + 4 * k ^ 2 * s ^ 2 / (4 * s ^ 2)) with (E1 ^ 2) by (rewrite KE1; field; lra). now apply sqrt_pow2.
  Qed.
  Lemma hE2 : sqrt (m2 ^ 2 + lambda_K q2 (m1 ^ 2) (m2 ^ 2) / (4 * q2)) = E2.
  Proof using K Pm1 Pm2.
    destruct E_pos as [_ e]. destruct K as [Ks Kp _ Kk _ _ KE2 _ _ Kla _ _]. rewrite Kla, <- Ks.
    replace (m2 ^ 2 + 4 * k ^ 2 * s ^ 2 / (4 * s ^ 2)) with (E2 ^ 2) by (rewrite KE2; field; lra). now apply sqrt_pow2.
  Qed.
  Lemma M12 : m1 ^ 2 - m2 ^ 2 = (E1 - E2) * s.
  Proof using K. destruct K as [_ _ _ _ Ksum KE1 KE2 _ _ _ _ _]. rewrite <- Ksum. lra. Qed.
  Lemma hk4 : lambda_K q2 (m1 ^ 2) (m2 ^ 2) / (4 * q2) = k ^ 2.
  Proof using K. destruct K as [Ks Kp _ _ _ _ _ _ _ Kla _ _]. rewrite Kla, <- Ks. field. lra. Qed.
  Lemma hk (x : R) : x * lambda_K q2 (m1 ^ 2) (m2 ^ 2) / q2 = x * (4 * k ^ 2).
  Proof using K. destruct K as [Ks Kp _ _ _ _ _ _ _ Kla _ _]. rewrite Kla, <- Ks. field. lra. Qed.
  Lemma s_ne : s <> 0. Proof using K. destruct K. lra. Qed.
  Lemma fold_bil (a b : C) : (a * Cconj b)%C = a .* b. Proof using. reflexivity. Qed.
  Definition sw_f (a b : C) := proj1 (bil_swap a b).
  Definition sw_s (a b : C) := proj2 (bil_swap a b).
  Ltac prep :=
    unfold f, n, m, S', P'; rewrite ?flip_even, ?flip_odd, ?same_v_bil, ?same_a_bil, ?scal_bil, ?pseudo_bil, ?scal_same_l, ?scal_same_r, ?pseudo_same_l, ?pseudo_same_r;
    pose proof (prods _ _ _ _ _ _ _ _ Pm1 Pm2 K) as [p1 p2 p3 p4 p5 p6 p7 p8 p9 p10]; rewrite ?p1, ?p2, ?p3, ?p4, ?p5, ?p6, ?p7, ?p8, ?p9, ?p10;
    rewrite ?(k_sum _ _ _ _ _ _ _ _ K); clear p1 p2 p3 p4 p5 p6 p7 p8 p9 p10;
    assert (Hs2 : sqrt 2 * sqrt 2 = 2) by (apply sqrt_sqrt; lra);
    assert (H3 : sqrt 3 <> 0) by (apply Rgt_not_eq, sqrt_lt_R0; lra);
    assert (Ei : s * i = 1) by (destruct K; assumption);
    unfold J, angularcoeffs_general_v, J_of_g, G_to_g, signflip, angularcoeffs_general_Gbasis_v; cbv zeta; fold N; rewrite hE1, hE2; unfold gscale;
    cbn [G000 G010 G020 G200 G210 G220 G211 G221 G222]; rewrite ?mod_bil;
    rewrite ?hsla, ?hsq, ?hk4, ?hk; rewrite ?(Cdiv_real _ _ s_ne); clearbody N; repeat rewrite <- Cmult_assoc; rewrite ?fold_bil; pull; unfold Rdiv;
    rewrite ?hiq4, ?hiq, ?his, ?M12.
  Ltac diag l := rewrite ?(sw_s (aV H l) (aTt H l)), ?(sw_s (aA H l) (aT H l)), ?(sw_f (aV H l) (aA H l)), ?(sw_s (aV H l) (aA H l)), ?(sw_f (aT H l) (aTt H l)),
    ?(sw_s (aT H l) (aV H l)), ?(sw_s (aTt H l) (aA H l)).
  Lemma coeff_c_sum : J J1c + J J2c = 16 / 3 * N * (fst (n H0 .* n H0) + fst (S' .* S') + fst (m H0 .* m H0) + fst (P' .* P')).
  Proof using K Pm1 Pm2. prep. diag H0. field [Hs2 Ei]. Qed.
  Lemma coeff_c_diff : J J1c - J J2c = 16 / 3 * N * (fst (f 1 H0 .* f 1 H0 + f (-1) H0 .* f (-1) H0)%C / 2 + fst (S' .* S') + fst (P' .* P')).
  Proof using K Pm1 Pm2. prep. diag H0. field [Hs2 Ei]. Qed.
  Lemma coeff_6c : J J6c = 16 / 3 * N * (2 * fst (n H0 .* S') + 2 * fst (m H0 .* P')).
  Proof using K Pm1 Pm2. prep. field [Hs2 Ei]. Qed.
  Lemma coeff_s_diff : J J1s - J J2s = 16 / 3 * N * (fst ((f 1 Hpl .* f 1 Hpl + f (-1) Hpl .* f (-1) Hpl) + (f 1 Hmi .* f 1 Hmi + f (-1) Hmi .* f (-1) Hmi))%C / 8
    + fst (n Hpl .* n Hpl + n Hmi .* n Hmi + m Hpl .* m Hpl + m Hmi .* m Hmi)%C / 4).
  Proof using K Pm1 Pm2. prep. diag Hpl. diag Hmi. field [Hs2 Ei]. Qed.
  Lemma coeff_2s : 2 * J J2s = 16 / 3 * N * (fst ((f 1 Hpl .* f 1 Hpl + f (-1) Hpl .* f (-1) Hpl) + (f 1 Hmi .* f 1 Hmi + f (-1) Hmi .* f (-1) Hmi))%C / 8
    - fst (n Hpl .* n Hpl + n Hmi .* n Hmi + m Hpl .* m Hpl + m Hmi .* m Hmi)%C / 4).
  Proof using K Pm1 Pm2. prep. diag Hpl. diag Hmi. field [Hs2 Ei]. Qed.
  Lemma coeff_6s : J J6s = 16 / 3 * N * (fst ((f 1 Hpl .* f 1 Hpl - f (-1) Hpl .* f (-1) Hpl) - (f 1 Hmi .* f 1 Hmi - f (-1) Hmi .* f (-1) Hmi))%C / 4).
  Proof using K Pm1 Pm2. prep. diag Hpl. diag Hmi. field [Hs2 Ei]. Qed.
  Lemma coeff_3 : J J3 = 16 / 3 * N * (- fst (f 1 Hpl .* f 1 Hmi + f (-1) Hpl .* f (-1) Hmi)%C / 4 + fst (n Hpl .* n Hmi + m Hpl .* m Hmi)%C / 2).
  Proof using K Pm1 Pm2. prep. field [Hs2 Ei]. Qed.
  Lemma coeff_9 : J J9 = 16 / 3 * N * (snd (f 1 Hpl .* f 1 Hmi + f (-1) Hpl .* f (-1) Hmi)%C / 4 - snd (n Hpl .* n Hmi + m Hpl .* m Hmi)%C / 2).
  Proof using K Pm1 Pm2. prep. field [Hs2 Ei]. Qed.
  Lemma coeff_4 : 4 * J J4 = 16 / 3 * N * (- fst ((f 1 Hpl .* f 1 H0 + f (-1) Hpl .* f (-1) H0) + (f 1 H0 .* f 1 Hmi + f (-1) H0 .* f (-1) Hmi))%C / 2
    + fst (n Hpl .* n H0 + n H0 .* n Hmi + m Hpl .* m H0 + m H0 .* m Hmi)%C).
  Proof using K Pm1 Pm2. prep. field [Hs2 Ei]. Qed.
  Lemma coeff_8 : 4 * J J8 = 16 / 3 * N * (snd ((f 1 Hpl .* f 1 H0 + f (-1) Hpl .* f (-1) H0) + (f 1 H0 .* f 1 Hmi + f (-1) H0 .* f (-1) Hmi))%C / 2
    - snd (n Hpl .* n H0 + n H0 .* n Hmi + m Hpl .* m H0 + m H0 .* m Hmi)%C).
  Proof using K Pm1 Pm2. prep. field [Hs2 Ei]. Qed.
  Lemma coeff_5 : 2 * J J5 = 16 / 3 * N * (- fst ((f 1 Hpl .* f 1 H0 - f (-1) Hpl .* f (-1) H0) - (f 1 H0 .* f 1 Hmi - f (-1) H0 .* f (-1) Hmi))%C / 2
    + fst (n Hpl .* S' + S' .* n Hmi + m Hpl .* P' + P' .* m Hmi)%C).
  Proof using K Pm1 Pm2. prep. field [Hs2 Ei]. exact H3. Qed.
  Lemma coeff_7 : 2 * J J7 = 16 / 3 * N * (snd ((f 1 Hpl .* f 1 H0 - f (-1) Hpl .* f (-1) H0) - (f 1 H0 .* f 1 Hmi - f (-1) H0 .* f (-1) Hmi))%C / 2
    - snd (n Hpl .* S' + S' .* n Hmi + m Hpl .* P' + P' .* m Hmi)%C).
  Proof using K Pm1 Pm2. prep. field [Hs2 Ei]. exact H3. Qed.
End Coefficients.
