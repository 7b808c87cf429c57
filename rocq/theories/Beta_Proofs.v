(** * Lemmas about beta decays *)
From Coq Require Import Reals Lra.
From Coquelicot Require Import Coquelicot.
From Coq Require Import String List.
From Verif Require Import Base Basics_Model Basics_Proofs Beta_Model.
Local Open Scope R_scope.

Lemma abs1 : Rabs 1 = 1. Proof. apply Rabs_R1. Qed.
Lemma abs_s3 : Rabs (sqrt 3) = sqrt 3. Proof. apply Rabs_right, Rle_ge, sqrt_pos. Qed.
Lemma s3_sq : sqrt 3 ^ 2 = 3. Proof. apply pow2_sqrt. lra. Qed.
Lemma la_half : la (1 / 2) (1 / 2) = Ok (2 / 3).
Proof. unfold la. destruct Req_EM_T as [e | _]; [lra|]. destruct Req_EM_T as [_ | n]; [f_equal; field | exfalso; apply n; reflexivity]. Qed.
Lemma dl_half : dl (1 / 2) (1 / 2) = 1. Proof. unfold dl. destruct Req_EM_T as [_ | n]; [reflexivity | exfalso; apply n; reflexivity]. Qed.
Lemma s3_half : sqrt 3 * sqrt (1 / 2 / (1 / 2 + 1)) = 1.
Proof. rewrite <- sqrt_mult by lra. replace (3 * (1 / 2 / (1 / 2 + 1))) with 1 by field. apply sqrt_1. Qed.
Lemma mix_half x : dl (1 / 2) (1 / 2) * Rabs 1 * Rabs (sqrt 3) * sqrt (1 / 2 / (1 / 2 + 1)) * x = x.
Proof. rewrite dl_half, abs1, abs_s3. transitivity ((sqrt 3 * sqrt (1 / 2 / (1 / 2 + 1))) * x); [ring | rewrite s3_half; ring]. Qed.
(** modulus squared, and real and imaginary part of z w* *)
Definition N2 (z : C) : R := fst z ^ 2 + snd z ^ 2.
Definition rp (z w : C) : R := fst z * fst w + snd z * snd w.
Definition ip (z w : C) : R := snd z * fst w - fst z * snd w.
Lemma n_xi_is k : n_xi k = 2 * (N2 (kV k) + N2 (kS k) + 3 * (N2 (kA k) + N2 (kT k))).
Proof. unfold n_xi, xi. rewrite !cmod_sq, abs1, abs_s3, s3_sq. unfold N2. ring. Qed.
Lemma n_a_is k : a_xi k 1 (sqrt 3) = 2 * (N2 (kV k) - N2 (kS k) - N2 (kA k) + N2 (kT k)).
Proof. unfold a_xi. rewrite !cmod_sq, abs1, abs_s3, s3_sq. unfold N2. field. Qed.
Lemma n_b_is p k : b_xi k 1 (sqrt 3) (b_alpha p) 0 1 = 4 * (rp (kV k) (kS k) + 3 * rp (kA k) (kT k)).
Proof.
  unfold b_xi. cbv zeta. rewrite abs1, abs_s3, s3_sq. replace (1 - b_alpha p ^ 2 * 0 ^ 2) with 1 by ring. rewrite sqrt_1.
  unfold rp. cbn [fst snd Re Im Cmult Cconj]. ring.
Qed.
Lemma n_A_is k : A_xi k 1 (sqrt 3) (1 / 2) (1 / 2) 1 = Ok (4 * (N2 (kT k) - N2 (kA k) + rp (kS k) (kT k) - rp (kV k) (kA k))).
Proof.
  unfold A_xi. rewrite la_half. cbn [bind]. rewrite mix_half, !cmod_sq, abs_s3, s3_sq. unfold N2, rp.
  cbn [fst snd Re Im RtoC Cplus Cminus Copp Cmult Cconj]. f_equal. field.
Qed.
Lemma n_B_is k m : B_xi k 1 (sqrt 3) (1 / 2) (1 / 2) m 1
  = Ok (4 * (N2 (kT k) + N2 (kA k) + 2 * m * rp (kT k) (kA k) - rp (kS k) (kT k) - rp (kV k) (kA k) - m * (rp (kS k) (kA k) + rp (kV k) (kT k)))).
Proof.
  unfold B_xi. rewrite la_half. cbn [bind]. rewrite mix_half, !cmod_sq, abs_s3, s3_sq. unfold N2, rp.
  cbn [fst snd Re Im RtoC Cplus Cminus Copp Cmult Cconj]. f_equal. field.
Qed.
Lemma n_D_is k : D_xi k 1 (sqrt 3) (1 / 2) (1 / 2) = 4 * (ip (kS k) (kT k) - ip (kV k) (kA k)).
Proof. unfold D_xi. rewrite mix_half. unfold ip. cbn [fst snd Re Im RtoC Cplus Cminus Copp Cmult Cconj]. ring. Qed.
Lemma n_R_is k : R_xi k 1 (sqrt 3) (1 / 2) (1 / 2) 1 = Ok (4 * (2 * ip (kT k) (kA k) + ip (kS k) (kA k) - ip (kV k) (kT k))).
Proof.
  unfold R_xi. rewrite la_half. cbn [bind]. rewrite mix_half, abs_s3, s3_sq. unfold ip.
  cbn [fst snd Re Im RtoC Cplus Cminus Copp Cmult Cconj]. f_equal. field.
Qed.
Lemma N2_pos z : 0 <= N2 z. Proof. unfold N2. generalize (pow2_ge_0 (fst z)) (pow2_ge_0 (snd z)). lra. Qed.

(** positive Hermitian form in two variables *)
Lemma herm_pos P Q S T (x y : C) : 0 <= P -> 0 <= Q -> S ^ 2 + T ^ 2 <= P * Q -> 0 <= P * N2 x + Q * N2 y - 2 * S * rp x y - 2 * T * ip x y.
Proof.
  intros hP hQ h. destruct hP as [hP | <-].
  - apply Rmult_le_reg_l with P; [exact hP|]. rewrite Rmult_0_r.
    assert (E : P * (P * N2 x + Q * N2 y - 2 * S * rp x y - 2 * T * ip x y)
      = (P * fst x - S * fst y + T * snd y) ^ 2 + (P * snd x - S * snd y - T * fst y) ^ 2 + (P * Q - S ^ 2 - T ^ 2) * N2 y) by (unfold N2, rp, ip; ring).
    rewrite E. pose proof (Rmult_le_pos (P * Q - S ^ 2 - T ^ 2) (N2 y) ltac:(lra) (N2_pos y)).
    generalize (pow2_ge_0 (P * fst x - S * fst y + T * snd y)) (pow2_ge_0 (P * snd x - S * snd y - T * fst y)). lra.
  - pose proof (pow2_ge_0 S). pose proof (pow2_ge_0 T). assert (S = 0) by (apply Rsqr_0_uniq; unfold Rsqr; lra). assert (T = 0) by (apply Rsqr_0_uniq; unfold Rsqr; lra). subst.
    pose proof (Rmult_le_pos _ _ hQ (N2_pos y)). lra.
Qed.
Definition Fe (c ne nv t : R) (x y : C) : R := (1 + c) * N2 x + (3 - c - 2 * ne + 2 * nv) * N2 y - 2 * (ne + nv) * rp x y - 2 * t * ip x y.
Lemma Fe_pos c ne nv t x y : -1 <= c <= 1 -> -1 <= ne <= 1 -> -1 <= nv <= 1 -> t ^ 2 = 1 - c ^ 2 - ne ^ 2 - nv ^ 2 + 2 * c * ne * nv -> 0 <= Fe c ne nv t x y.
Proof.
  intros hc hn hv ht.
  assert (D : (1 + c) * (3 - c - 2 * ne + 2 * nv) - ((ne + nv) ^ 2 + t ^ 2) = 2 * ((1 + c) * ((1 - ne) * (1 + nv)))) by (rewrite ht; ring).
  assert (D' : 0 <= (1 + c) * ((1 - ne) * (1 + nv))) by (apply Rmult_le_pos; [lra | apply Rmult_le_pos; lra]).
  unfold Fe. apply herm_pos; [lra | | lra].
  destruct (Req_dec (1 + c) 0) as [z | z].
  - rewrite z in D. assert (ne + nv = 0); [|lra]. apply Rsqr_0_uniq. unfold Rsqr. pose proof (pow2_ge_0 t). pose proof (pow2_ge_0 (ne + nv)). lra.
  - apply Rmult_le_reg_l with (1 + c); [lra|]. pose proof (pow2_ge_0 t). pose proof (pow2_ge_0 (ne + nv)). lra.
Qed.
(** the distribution is the sum over the helicities of the electron *)
Definition cadd (p q : R) (x y : C) : C := (p * fst x + q * fst y, p * snd x + q * snd y).
Lemma helicities p q c ne nv t (V S A T : C) : p ^ 2 + q ^ 2 = 1 ->
  N2 V + N2 S + 3 * (N2 A + N2 T) + 2 * (rp V S + 3 * rp A T) * (2 * p * q) + (N2 V - N2 S - N2 A + N2 T) * ((p ^ 2 - q ^ 2) * c)
  + 2 * (N2 T - N2 A + rp S T - rp V A) * ((p ^ 2 - q ^ 2) * ne)
  + 2 * (N2 T + N2 A + 2 * (2 * p * q) * rp T A - rp S T - rp V A - (2 * p * q) * (rp S A + rp V T)) * nv
  + 2 * (ip S T - ip V A) * ((p ^ 2 - q ^ 2) * t)
  = Fe c ne nv t (cadd p q V S) (cadd p q A T) + Fe (- c) (- ne) nv (- t) (cadd q p V S) (cadd q p A T).
Proof.
  intro H. assert (H' : p * p = 1 - q * q) by (cbn in H; lra). clear H. unfold Fe, cadd, N2, rp, ip. destruct V, S, A, T. cbn [fst snd]. ring [H'].
Qed.
Lemma mix_exists beta m : 0 <= beta <= 1 -> 0 <= m -> beta ^ 2 + m ^ 2 = 1 -> exists p q, p ^ 2 + q ^ 2 = 1 /\ beta = p ^ 2 - q ^ 2 /\ m = 2 * p * q.
Proof.
  intros hb hm E. exists (sqrt ((1 + beta) / 2)), (sqrt ((1 - beta) / 2)). rewrite !pow2_sqrt by lra.
  split; [field|]. split; [field|]. rewrite Rmult_assoc, <- sqrt_mult by lra.
  replace ((1 + beta) / 2 * ((1 - beta) / 2)) with ((1 - beta ^ 2) / 4) by field. replace (1 - beta ^ 2) with (m ^ 2) by lra.
  replace (m ^ 2 / 4) with ((m / 2) ^ 2) by field. rewrite sqrt_pow2 by lra. field.
Qed.
