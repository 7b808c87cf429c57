(** * Proofs for the angular distributions: the parallelogram identity, B -> P l l, examples *)
From Coq Require Import Reals Lra Psatz.
From Coquelicot Require Import Coquelicot.
From Verif Require Import Base Basics_Model Basics_Proofs Angular_Model Angular_Spec Angular_Proofs Angular_Proofs2 Angular_Proofs3 Angular_Proofs4 Angular_Proofs5 Angular_Proofs6 Angular_Proofs7 Angular_Proofs8.
Local Open Scope R_scope.

Lemma bil_sum2 (a b a' b' : C) : ((a + b)%C .* (a' + b')%C + (a - b)%C .* (a' - b')%C)%C = (RtoC 2 * (a .* a') + RtoC 2 * (b .* b'))%C.
Proof. unfold bil. unfold Cminus. rewrite !Cconj_plus, !Cconj_opp, two_C. ring. Qed.
Lemma bil_sum2_fst (a b a' b' : C) : fst ((a + b)%C .* (a' + b')%C) = 2 * fst (a .* a') + 2 * fst (b .* b') - fst ((a - b)%C .* (a' - b')%C).
Proof. pose proof (f_equal fst (bil_sum2 a b a' b')) as E. rewrite !fst_plus, !fst_real in E. lra. Qed.
Lemma bil_sum2_snd (a b a' b' : C) : snd ((a + b)%C .* (a' + b')%C) = 2 * snd (a .* a') + 2 * snd (b .* b') - snd ((a - b)%C .* (a' - b')%C).
Proof. pose proof (f_equal snd (bil_sum2 a b a' b')) as E. rewrite !snd_plus, !snd_real in E. lra. Qed.
Lemma coeff_parallelogram fp fm n m S P fp' fm' n' m' S' P' k :
  coeff_of (fun l => fp l + fp' l)%C (fun l => fm l + fm' l)%C (fun l => n l + n' l)%C (fun l => m l + m' l)%C (S + S')%C (P + P')%C k
  + coeff_of (fun l => fp l - fp' l)%C (fun l => fm l - fm' l)%C (fun l => n l - n' l)%C (fun l => m l - m' l)%C (S - S')%C (P - P')%C k
  = 2 * coeff_of fp fm n m S P k + 2 * coeff_of fp' fm' n' m' S' P' k.
Proof. destruct k; cbn [coeff_of]; rewrite ?bil_sum2_fst, ?bil_sum2_snd; lra. Qed.
Section Lin.
  Variables (q2 m1 m2 : R) (c : C) (H H' : amps).
  Lemma flip_add s l : flip q2 m1 m2 (amps_add H c H') s l = (flip q2 m1 m2 H s l + c * flip q2 m1 m2 H' s l)%C.
  Proof. unfold flip, amps_add. cbn [aV aA aT aTt]. ring. Qed.
  Lemma same_v_add l : same_v q2 m1 m2 (amps_add H c H') l = (same_v q2 m1 m2 H l + c * same_v q2 m1 m2 H' l)%C.
  Proof. unfold same_v, amps_add. cbn [aV aA aT aTt]. ring. Qed.
  Lemma same_a_add l : same_a q2 m1 m2 (amps_add H c H') l = (same_a q2 m1 m2 H l + c * same_a q2 m1 m2 H' l)%C.
  Proof. unfold same_a, amps_add. cbn [aV aA aT aTt]. ring. Qed.
  Lemma scalar_add : scalar q2 m1 m2 (amps_add H c H') = (scalar q2 m1 m2 H + c * scalar q2 m1 m2 H')%C.
  Proof. unfold scalar, amps_add. cbn [aS]. ring. Qed.
  Lemma pseudo_add : pseudo q2 m1 m2 (amps_add H c H') = (pseudo q2 m1 m2 H + c * pseudo q2 m1 m2 H')%C.
  Proof. unfold pseudo, amps_add. cbn [aP]. ring. Qed.
End Lin.
Lemma J_parallelogram (H H' : amps) (c : C) (q2 mB mV m1 m2 : R) (k : jkey) : physical q2 m1 m2 -> Cmod c ^ 2 = 1 ->
  let J X := angularcoeffs_general_v X q2 mB mV m1 m2 k in
  J (amps_add H c H') + J (amps_add H (- c)%C H') = 2 * J H + 2 * J H'.
Proof.
  intros Ph M J. unfold J. rewrite !coefficients by assumption.
  rewrite (coeff_ext _ _ _ _ _ _ (fun l => flip q2 m1 m2 H 1 l + c * flip q2 m1 m2 H' 1 l)%C (fun l => flip q2 m1 m2 H (-1) l + c * flip q2 m1 m2 H' (-1) l)%C
    (fun l => same_v q2 m1 m2 H l + c * same_v q2 m1 m2 H' l)%C (fun l => same_a q2 m1 m2 H l + c * same_a q2 m1 m2 H' l)%C
    (scalar q2 m1 m2 H + c * scalar q2 m1 m2 H')%C (pseudo q2 m1 m2 H + c * pseudo q2 m1 m2 H')%C);
    [| intros; apply flip_add | intros; apply flip_add | intros; apply same_v_add | intros; apply same_a_add | apply scalar_add | apply pseudo_add].
  rewrite (coeff_ext (flip q2 m1 m2 (amps_add H (- c)%C H') 1) _ _ _ _ _ (fun l => flip q2 m1 m2 H 1 l - c * flip q2 m1 m2 H' 1 l)%C (fun l => flip q2 m1 m2 H (-1) l - c * flip q2 m1 m2 H' (-1) l)%C
    (fun l => same_v q2 m1 m2 H l - c * same_v q2 m1 m2 H' l)%C (fun l => same_a q2 m1 m2 H l - c * same_a q2 m1 m2 H' l)%C
    (scalar q2 m1 m2 H - c * scalar q2 m1 m2 H')%C (pseudo q2 m1 m2 H - c * pseudo q2 m1 m2 H')%C);
    [| intros; rewrite flip_add; ring | intros; rewrite flip_add; ring | intros; rewrite same_v_add; ring | intros; rewrite same_a_add; ring | rewrite scalar_add; ring | rewrite pseudo_add; ring].
  pose proof (coeff_parallelogram (flip q2 m1 m2 H 1) (flip q2 m1 m2 H (-1)) (same_v q2 m1 m2 H) (same_a q2 m1 m2 H) (scalar q2 m1 m2 H) (pseudo q2 m1 m2 H)
    (fun l => c * flip q2 m1 m2 H' 1 l)%C (fun l => c * flip q2 m1 m2 H' (-1) l)%C (fun l => c * same_v q2 m1 m2 H' l)%C (fun l => c * same_a q2 m1 m2 H' l)%C (c * scalar q2 m1 m2 H')%C (c * pseudo q2 m1 m2 H')%C k) as P.
  rewrite coeff_scale, M in P. cbv beta in P. set (N := normalisation q2 mB mV m1 m2).
  match type of P with ?a + ?b = ?d => assert (P' : 16 / 3 * N * (a + b) = 16 / 3 * N * d) by (now rewrite P) end. lra.
Qed.
Lemma unit_mod (phi : R) : Cmod (cos phi, sin phi) ^ 2 = 1.
Proof. rewrite cmod_sq. cbn [fst snd]. pose proof (sin2_cos2 phi) as E. unfold Rsqr in E. lra. Qed.
Lemma h_opposite (phi : R) (H Ht : amps) (q2 mB mV m1 m2 : R) (k : jkey) : physical q2 m1 m2 ->
  angularcoeffs_h_v (phi + PI) H Ht q2 mB mV m1 m2 k = - angularcoeffs_h_v phi H Ht q2 mB mV m1 m2 k.
Proof.
  intros Ph. rewrite !polarisation. rewrite neg_cos, neg_sin. pose proof (J_parallelogram H Ht (cos phi, sin phi) q2 mB mV m1 m2 k Ph (unit_mod phi)) as P. cbv zeta in P.
  change (- (cos phi, sin phi))%C with ((- cos phi, - sin phi) : C) in P. lra.
Qed.
Lemma dG_h (phi : R) (H Ht : amps) (q2 mB mV m1 m2 : R) :
  dGdq2 (angularcoeffs_h_v phi H Ht q2 mB mV m1 m2) = dGdq2 (angularcoeffs_general_v (amps_add H (cos phi, sin phi) Ht) q2 mB mV m1 m2)
    - dGdq2 (angularcoeffs_general_v H q2 mB mV m1 m2) - dGdq2 (angularcoeffs_general_v Ht q2 mB mV m1 m2).
Proof. unfold dGdq2. rewrite !polarisation. ring. Qed.
Lemma h_rate_bound (phi : R) (H Ht : amps) (q2 mB mV m1 m2 : R) : physical q2 m1 m2 -> 0 < mB ->
  Rabs (dGdq2 (angularcoeffs_h_v phi H Ht q2 mB mV m1 m2)) <= dGdq2 (angularcoeffs_general_v H q2 mB mV m1 m2) + dGdq2 (angularcoeffs_general_v Ht q2 mB mV m1 m2).
Proof.
  intros Ph HB. assert (O : dGdq2 (angularcoeffs_h_v (phi + PI) H Ht q2 mB mV m1 m2) = - dGdq2 (angularcoeffs_h_v phi H Ht q2 mB mV m1 m2)) by (unfold dGdq2; rewrite !h_opposite by assumption; ring).
  pose proof (rate_pos (amps_add H (cos phi, sin phi) Ht) q2 mB mV m1 m2 Ph HB) as p1. pose proof (rate_pos (amps_add H (cos (phi + PI), sin (phi + PI)) Ht) q2 mB mV m1 m2 Ph HB) as p2.
  pose proof (dG_h phi H Ht q2 mB mV m1 m2) as e1. pose proof (dG_h (phi + PI) H Ht q2 mB mV m1 m2) as e2. rewrite O in e2. apply Rabs_le. lra.
Qed.

(** ** B -> P l l *)
Lemma rate_p_integral (J : pcoeffs) : RInt (fun th => distribution_p J th * sin th) 0 PI = P_dGdq2 J.
Proof.
  rewrite RInt_der with (F := fun x => - Ja J * cos x - Jb J * cos x ^ 2 / 2 - Jc J * cos x ^ 3 / 3).
  - rewrite cos_PI, cos_0. unfold P_dGdq2. toR. field.
  - intros x. unfold distribution_p. auto_derive; [easy |]. simpl pred. toR. field.
  - intros x. apply (ex_derive_continuous (V := R_NormedModule)). unfold distribution_p. auto_derive. easy.
Qed.
Lemma AFB_p_integral (J : pcoeffs) : RInt (fun th => distribution_p J th * sin th) 0 (PI / 2) - RInt (fun th => distribution_p J th * sin th) (PI / 2) PI = P_AFB_num J.
Proof.
  assert (E : forall a b, RInt (fun th => distribution_p J th * sin th) a b = (- Ja J * cos b - Jb J * cos b ^ 2 / 2 - Jc J * cos b ^ 3 / 3) - (- Ja J * cos a - Jb J * cos a ^ 2 / 2 - Jc J * cos a ^ 3 / 3)).
  { intros a b. apply (RInt_der (fun x => - Ja J * cos x - Jb J * cos x ^ 2 / 2 - Jc J * cos x ^ 3 / 3)).
    - intros x. unfold distribution_p. auto_derive; [easy |]. simpl pred. toR. field.
    - intros x. apply (ex_derive_continuous (V := R_NormedModule)). unfold distribution_p. auto_derive. easy. }
  rewrite !E, cos_PI, cos_0, cos_PI2. unfold P_AFB_num. toR. field.
Qed.
Lemma pos_p (h : pamps) (q2 mB mP m1 m2 th : R) : physical q2 m1 m2 -> 0 < mB -> 0 <= distribution_p (angularcoeffs_general_p h q2 mB mP m1 m2) th.
Proof.
  intros Ph HB. rewrite distribution_p_is by assumption. apply Rmult_le_pos.
  - pose proof (norm_pos q2 mB mP m1 m2 HB) as P. destruct Ph as (_ & _ & Q & _). specialize (P Q). lra.
  - unfold helicity_sum_p. cbv zeta. assert (A : forall z, 0 <= Cmod z ^ 2) by (intros; apply pow2_ge_0).
    apply Rplus_le_le_0_compat; [apply Rplus_le_le_0_compat |]; [apply Rmult_le_pos | apply A | apply A].
    + pose proof (pow2_ge_0 (sin th)). lra.
    + apply Rplus_le_le_0_compat; apply A.
Qed.
Lemma ac_b (h : pamps) (q2 mB mP m1 m2 : R) : physical q2 m1 m2 -> 0 < mB -> let J := angularcoeffs_general_p h q2 mB mP m1 m2 in
  Rabs (Jb J) <= Ja J + Jc J /\ 0 <= Ja J.
Proof.
  intros Ph HB J. pose proof (pos_p h q2 mB mP m1 m2 0 Ph HB) as a. pose proof (pos_p h q2 mB mP m1 m2 PI Ph HB) as b. pose proof (pos_p h q2 mB mP m1 m2 (PI / 2) Ph HB) as c.
  fold J in a, b, c. unfold distribution_p in a, b, c. rewrite cos_0 in a. rewrite cos_PI in b. rewrite cos_PI2 in c. split; [apply Rabs_le |]; lra.
Qed.
Lemma c_neg (h : pamps) (q2 mB mP m1 m2 : R) : physical q2 m1 m2 -> 0 < mB -> pT h = RtoC 0 -> pTt h = RtoC 0 -> Jc (angularcoeffs_general_p h q2 mB mP m1 m2) <= 0.
Proof.
  intros Ph HB t1 t2. unfold angularcoeffs_general_p, angularcoeffs_general_Gbasis_p. cbv zeta. cbn [Jc Gp2]. rewrite t1, t2, norm_is.
  assert (N : 0 <= normalisation q2 mB mP m1 m2) by (apply norm_pos; [exact HB | apply Ph]).
  pose proof (triangle_pos _ _ _ Ph) as T. rewrite lambda_triangle by assumption. rewrite !Cmod_0.
  assert (X : 0 <= Cmod (pV h) ^ 2 + Cmod (pA h) ^ 2) by (apply Rplus_le_le_0_compat; apply pow2_ge_0).
  assert (Y : 0 <= 4 * triangle q2 (m1 ^ 2) (m2 ^ 2) / (3 * q2)). { destruct Ph as (_ & _ & Q & _). apply Rmult_le_pos; [lra |]. left. apply Rinv_0_lt_compat. lra. }
  pose proof (Rmult_le_pos _ _ N (Rmult_le_pos _ _ Y X)) as Z.
  apply Rle_trans with (- (3 / 2 * (normalisation q2 mB mP m1 m2 * (4 * triangle q2 (m1 ^ 2) (m2 ^ 2) / (3 * q2) * (Cmod (pV h) ^ 2 + Cmod (pA h) ^ 2))))); [| lra].
  right. unfold Rdiv. ring.
Qed.
