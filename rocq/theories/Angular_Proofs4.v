(** * Proofs for the angular distributions: bounds on the coefficients *)
From Coq Require Import Reals Lra Psatz.
From Coquelicot Require Import Complex.
From Verif Require Import Base Basics_Model Basics_Proofs Angular_Model Angular_Spec Angular_Proofs Angular_Proofs2.
Local Open Scope R_scope.

Lemma bil_pos (z : C) : 0 <= fst (z .* z).
Proof. rewrite <- mod_bil. apply pow2_ge_0. Qed.
Lemma bil_0l (z : C) : RtoC 0 .* z = RtoC 0.
Proof. unfold bil. ring. Qed.
Lemma bil_0r (z : C) : z .* RtoC 0 = RtoC 0.
Proof. unfold bil. rewrite Cconj_real. ring. Qed.

(** ** the rate, the polarisation fraction and the forward-backward asymmetry of one decay *)
Section Bounds.
  Variables (H : amps) (q2 mB mV m1 m2 : R).
  Hypotheses (Ph : physical q2 m1 m2) (HB : 0 < mB).
  Let J := angularcoeffs_general_v H q2 mB mV m1 m2.
  Let N' := 16 / 3 * normalisation q2 mB mV m1 m2.
  Lemma N'_pos : 0 <= N'.
  Proof using Ph HB. unfold N'. pose proof (norm_pos q2 mB mV m1 m2 HB) as P. destruct Ph as (_ & _ & Q & _). specialize (P Q). lra. Qed.
  (** the rates into lepton pairs: opposite helicities and equal helicities, longitudinal and transverse *)
  Definition opp_L := fst (flip q2 m1 m2 H 1 H0 .* flip q2 m1 m2 H 1 H0) + fst (flip q2 m1 m2 H (-1) H0 .* flip q2 m1 m2 H (-1) H0).
  Definition eq_L := fst (same_v q2 m1 m2 H H0 .* same_v q2 m1 m2 H H0) + fst (same_a q2 m1 m2 H H0 .* same_a q2 m1 m2 H H0).
  Definition opp_T s := fst (flip q2 m1 m2 H s Hpl .* flip q2 m1 m2 H s Hpl) + fst (flip q2 m1 m2 H (-s) Hmi .* flip q2 m1 m2 H (-s) Hmi).
  Definition eq_T := fst (same_v q2 m1 m2 H Hpl .* same_v q2 m1 m2 H Hpl) + fst (same_v q2 m1 m2 H Hmi .* same_v q2 m1 m2 H Hmi)
    + fst (same_a q2 m1 m2 H Hpl .* same_a q2 m1 m2 H Hpl) + fst (same_a q2 m1 m2 H Hmi .* same_a q2 m1 m2 H Hmi).
  Definition scal_L := fst (scalar q2 m1 m2 H .* scalar q2 m1 m2 H) + fst (pseudo q2 m1 m2 H .* pseudo q2 m1 m2 H).
  Lemma decomposition : J J1c = N' / 2 * (eq_L + opp_L / 2 + 2 * scal_L) /\ J J2c = N' / 2 * (eq_L - opp_L / 2) /\
    J J1s = N' * (3 * (opp_T 1 + opp_T (-1)) / 16 + eq_T / 8) /\ J J2s = N' * ((opp_T 1 + opp_T (-1)) / 16 - eq_T / 8) /\
    J J6s = N' * (opp_T 1 - opp_T (-1)) / 4.
  Proof using Ph.
    destruct (kin _ _ _ Ph) as (s & i & k & E1 & E2 & K). destruct Ph as (P1 & P2 & _ & _).
    pose proof (coeff_c_sum H q2 mB mV m1 m2 s i k E1 E2 P1 P2 K) as c1. pose proof (coeff_c_diff H q2 mB mV m1 m2 s i k E1 E2 P1 P2 K) as c2.
    pose proof (coeff_s_diff H q2 mB mV m1 m2 s i k E1 E2 P1 P2 K) as c4.
    pose proof (coeff_2s H q2 mB mV m1 m2 s i k E1 E2 P1 P2 K) as c5. pose proof (coeff_6s H q2 mB mV m1 m2 s i k E1 E2 P1 P2 K) as c6.
    rewrite norm_is in c1, c2, c4, c5, c6. fold J N' in c1, c2, c4, c5, c6. repeat (rewrite fst_minus in c6 || rewrite fst_plus in c6). repeat rewrite fst_plus in c2. repeat rewrite fst_plus in c4. repeat rewrite fst_plus in c5.
    unfold eq_L, opp_L, opp_T, eq_T, scal_L. replace (- -1) with 1 by ring. replace (- (1)) with (-1) by ring. clearbody J N'. refine (conj _ (conj _ (conj _ (conj _ _)))); lra.
  Qed.
  Lemma parts_pos : 0 <= opp_L /\ 0 <= eq_L /\ 0 <= opp_T 1 /\ 0 <= opp_T (-1) /\ 0 <= eq_T /\ 0 <= scal_L.
  Proof using.
    unfold opp_L, eq_L, opp_T, eq_T, scal_L.
    refine (conj _ (conj _ (conj _ (conj _ (conj _ _))))); repeat first [apply bil_pos | apply Rplus_le_le_0_compat].
  Qed.
  Lemma rate_is : dGdq2 J = N' * ((opp_T 1 + opp_T (-1)) / 4 + eq_T / 4 + eq_L / 4 + opp_L / 4 + 3 / 4 * scal_L).
  Proof using Ph. destruct decomposition as (a & b & c & d & e). unfold dGdq2. rewrite a, b, c, d. field. Qed.
  Lemma rate_pos : 0 <= dGdq2 J.
  Proof using Ph HB. rewrite rate_is. destruct parts_pos as (a & b & c & d & e & f). apply Rmult_le_pos; [apply N'_pos | lra]. Qed.
  Lemma FL_upper : - J J2c <= dGdq2 J.
  Proof using Ph HB.
    rewrite rate_is. destruct decomposition as (_ & E & _). rewrite E. destruct parts_pos as (a & b & c & d & e & f). pose proof N'_pos as P.
    assert (0 <= N' * ((opp_T 1 + opp_T (-1)) / 4 + eq_T / 4 + eq_L / 4 + eq_L / 2 + 3 / 4 * scal_L)) by (apply Rmult_le_pos; lra). lra.
  Qed.
  Lemma FL_lower : J J2c <= 2 * dGdq2 J.
  Proof using Ph HB.
    rewrite rate_is. destruct decomposition as (_ & E & _). rewrite E. destruct parts_pos as (a & b & c & d & e & f). pose proof N'_pos as P.
    assert (0 <= N' * ((opp_T 1 + opp_T (-1)) / 2 + eq_T / 2 + opp_L / 2 + opp_L / 4 + 3 / 2 * scal_L)) by (apply Rmult_le_pos; lra). lra.
  Qed.
  Lemma J6s_bound : Rabs (J J6s) <= dGdq2 J.
  Proof using Ph HB.
    rewrite rate_is. destruct decomposition as (_ & _ & _ & _ & E). rewrite E. destruct parts_pos as (a & b & c & d & e & f). pose proof N'_pos as P.
    assert (0 <= N' * (eq_T / 4 + eq_L / 4 + opp_L / 4 + 3 / 4 * scal_L)) by (apply Rmult_le_pos; lra).
    assert (0 <= N' * opp_T 1) by now apply Rmult_le_pos. assert (0 <= N' * opp_T (-1)) by now apply Rmult_le_pos. apply Rabs_le. lra.
  Qed.
End Bounds.

(** ** without tensor amplitudes *)
Section No_tensors.
  Variables (H : amps) (q2 mB mV m1 m2 s i k E1 E2 : R).
  Hypotheses (Pm1 : 0 <= m1) (Pm2 : 0 <= m2) (K : kinematics q2 m1 m2 s i k E1 E2) (NT : no_tensors H).
  Let J := angularcoeffs_general_v H q2 mB mV m1 m2.
  Let N' := 16 / 3 * normalisation q2 mB mV m1 m2.
  Definition trans_sq := fst (aV H Hpl .* aV H Hpl) + fst (aV H Hmi .* aV H Hmi) + fst (aA H Hpl .* aA H Hpl) + fst (aA H Hmi .* aA H Hmi).
  Definition long_sq := fst (aV H H0 .* aV H H0) + fst (aA H H0 .* aA H H0).
  Definition X_pm := (aV H Hpl .* aV H Hmi + aA H Hpl .* aA H Hmi)%C.
  Definition X_0 := (aV H Hpl .* aV H H0 + aV H H0 .* aV H Hmi + aA H Hpl .* aA H H0 + aA H H0 .* aA H Hmi)%C.
  Definition Y_0 := (aV H Hpl .* aA H H0 + aA H Hpl .* aV H H0 - aV H H0 .* aA H Hmi - aA H H0 .* aV H Hmi)%C.
  Definition Y_pm := fst (aV H Hpl .* aA H Hpl) - fst (aV H Hmi .* aA H Hmi).
  Ltac nt c := rewrite norm_is in c; fold J N' in c;
    rewrite ?flip_even, ?flip_odd, ?same_v_bil, ?same_a_bil, ?scal_same_l, ?scal_same_r, ?pseudo_same_l, ?pseudo_same_r in c;
    rewrite ?(fun l => proj1 (NT l)), ?(fun l => proj2 (NT l)), ?bil_0l, ?bil_0r in c;
    pose proof (prods _ _ _ _ _ _ _ _ Pm1 Pm2 K) as [p1 p2 p3 p4 p5 p6 p7 p8 p9 p10]; rewrite ?p1, ?p2, ?p3, ?p4, ?p5, ?p6, ?p7, ?p8, ?p9, ?p10 in c;
    rewrite ?(k_sum _ _ _ _ _ _ _ _ K) in c; clear p1 p2 p3 p4 p5 p6 p7 p8 p9 p10;
    repeat (rewrite fst_plus in c || rewrite snd_plus in c || rewrite fst_minus in c || rewrite snd_minus in c || rewrite fst_opp in c || rewrite snd_opp in c ||
      rewrite fst_real in c || rewrite snd_real in c || rewrite fst_i in c || rewrite snd_i in c || change (fst (RtoC 0)) with 0 in c || change (snd (RtoC 0)) with 0 in c).
  Lemma nt_2s : J J2s = N' * (k ^ 2 / 2) * trans_sq.
  Proof using K Pm1 Pm2 NT. pose proof (coeff_2s H q2 mB mV m1 m2 s i k E1 E2 Pm1 Pm2 K) as c. nt c. unfold trans_sq. clearbody J N'. lra. Qed.
  Lemma nt_2c : J J2c = - (N' * (2 * k ^ 2)) * long_sq.
  Proof using K Pm1 Pm2 NT.
    pose proof (coeff_c_sum H q2 mB mV m1 m2 s i k E1 E2 Pm1 Pm2 K) as c. pose proof (coeff_c_diff H q2 mB mV m1 m2 s i k E1 E2 Pm1 Pm2 K) as c'.
    nt c. nt c'. unfold long_sq. clearbody J N'. lra.
  Qed.
  Lemma nt_3 : J J3 = - (N' * (2 * k ^ 2)) * fst X_pm.
  Proof using K Pm1 Pm2 NT. pose proof (coeff_3 H q2 mB mV m1 m2 s i k E1 E2 Pm1 Pm2 K) as c. nt c. unfold X_pm. rewrite fst_plus. clearbody J N'. lra. Qed.
  Lemma nt_9 : J J9 = N' * (2 * k ^ 2) * snd X_pm.
  Proof using K Pm1 Pm2 NT. pose proof (coeff_9 H q2 mB mV m1 m2 s i k E1 E2 Pm1 Pm2 K) as c. nt c. unfold X_pm. rewrite snd_plus. clearbody J N'. lra. Qed.
  Lemma nt_4 : J J4 = - (N' * k ^ 2) * fst X_0.
  Proof using K Pm1 Pm2 NT. pose proof (coeff_4 H q2 mB mV m1 m2 s i k E1 E2 Pm1 Pm2 K) as c. nt c. unfold X_0. rewrite !fst_plus. clearbody J N'. lra. Qed.
  Lemma nt_8 : J J8 = N' * k ^ 2 * snd X_0.
  Proof using K Pm1 Pm2 NT. pose proof (coeff_8 H q2 mB mV m1 m2 s i k E1 E2 Pm1 Pm2 K) as c. nt c. unfold X_0. rewrite !snd_plus. clearbody J N'. lra. Qed.
  Lemma nt_6s : J J6s = - (N' * (2 * k * s)) * Y_pm.
  Proof using K Pm1 Pm2 NT.
    pose proof (coeff_6s H q2 mB mV m1 m2 s i k E1 E2 Pm1 Pm2 K) as c. nt c. rewrite ?(fun l => sw_f (aV H l) (aA H l)) in c. unfold Y_pm. clearbody J N'. lra.
  Qed.
  Hypothesis NS : scalar q2 m1 m2 H = RtoC 0 /\ pseudo q2 m1 m2 H = RtoC 0.
  Lemma nt_5 : J J5 = N' * (k * s) * fst Y_0.
  Proof using K Pm1 Pm2 NT NS.
    pose proof (coeff_5 H q2 mB mV m1 m2 s i k E1 E2 Pm1 Pm2 K) as c. rewrite (proj1 NS), (proj2 NS), ?bil_0l, ?bil_0r in c. nt c.
    unfold Y_0. rewrite ?fst_minus, ?fst_plus. clearbody J N'. lra.
  Qed.
  Lemma nt_7 : J J7 = - (N' * (k * s)) * snd Y_0.
  Proof using K Pm1 Pm2 NT NS.
    pose proof (coeff_7 H q2 mB mV m1 m2 s i k E1 E2 Pm1 Pm2 K) as c. rewrite (proj1 NS), (proj2 NS), ?bil_0l, ?bil_0r in c. nt c.
    unfold Y_0. rewrite ?snd_minus, ?snd_plus. clearbody J N'. lra.
  Qed.
End No_tensors.
