(** * Lemmas for B_s -> V l l: the published quantities in terms of the decays at all times *)
From Coq Require Import Reals Lra.
From Coquelicot Require Import Coquelicot.
From Verif Require Import Base Basics_Model Basics_Spec Basics_Proofs Angular_Model Angular_Spec Angular_Proofs Angular_Proofs2 Angular_Proofs3 Angular_Proofs4 Angular_Proofs5 Angular_Proofs6 Angular_Proofs7 Angular_Proofs8 Angular_Proofs9 Decays_Model Decays_Spec Decays_Proofs Decays_Proofs3 Decays_Proofs5 DecaysNC_Model DecaysNC_Spec DecaysNC_Proofs DecaysNC_Proofs3 DecaysNC_Proofs4 DecaysBs_Spec DecaysBs_Proofs.
Local Open Scope string_scope.
Local Open Scope R_scope.

Section B.
  Variable b : bsvll.
  Hypothesis W : bs_ok b.
  Let d := b_d b.
  Let y := width_difference b.
  Definition Js (q2 : R) : jkey -> R := Jb_ b (same_state (l_hbar (b_d b) q2)) q2.
  Definition Jx (q2 : R) : jkey -> R := Jb_ b (amps_add (l_h (b_d b) q2) (b_qp b) (same_state (l_hbar (b_d b) q2))) q2.
  Definition TT (q2 : R) (k : jkey) : R := 1 / (1 - y ^ 2) * (Jv d q2 k + Js q2 k) - y / (1 - y ^ 2) * (Jx q2 k - Jv d q2 k - Js q2 k).
  Lemma Wd : vll_ok d. Proof using W. apply W. Qed.
  Lemma Y : -1 < y < 1. Proof using W. apply W. Qed.
  Lemma untagged_TT (x q2 : R) : thr d <= q2 <= top d -> untagged b x q2 (TT q2).
  Proof using W.
    intros L k. assert (Ph := phys_d d Wd q2 (proj1 L)). assert (U : Cmod (b_qp b) = 1) by apply W.
    apply (is_lim_ext (fun t0 => RInt (fun t => (exp (- (1 + y) * t) + exp (- (1 - y) * t)) / 2 * (Jv d q2 k + Js q2 k) + (exp (- (1 + y) * t) - exp (- (1 - y) * t)) / 2 * (Jx q2 k - Jv d q2 k - Js q2 k)) 0 t0)).
    - intros t0. apply ext_R. intros t. unfold at_time. cbv zeta. destruct (g_sum x (width_difference b) t) as (E1 & E2). unfold from_B, from_Bbar, Jb_.
      rewrite (J_time (l_h (b_d b) q2) (same_state (l_hbar (b_d b) q2)) (g_plus x (width_difference b) t) (g_minus x (width_difference b) t) (b_qp b) q2 (l_mB (b_d b)) (l_mV (b_d b)) (l_ml (b_d b)) (l_ml (b_d b)) k Ph U).
      rewrite E1, E2. reflexivity.
    - exact (time_lim y _ _ Y).
  Qed.
  Lemma untagged_unique (x q2 : R) (T : jkey -> R) : thr d <= q2 <= top d -> untagged b x q2 T -> forall k, T k = TT q2 k.
  Proof using W.
    intros L U k. assert (E1 := is_lim_unique _ _ _ (U k)). assert (E2 := is_lim_unique _ _ _ (untagged_TT x q2 L k)). rewrite E1 in E2. injection E2. auto.
  Qed.
  (** what the program computes *)
  Lemma no_tens (q2 : R) : thr d <= q2 <= top d -> no_tensors (l_h d q2) /\ no_tensors (l_hbar d q2).
  Proof using W. intros L. destruct W as (_ & T & _). exact (T q2 L). Qed.
  Lemma aL_eq (q2 m : R) : aL q2 m m = 0.
  Proof using. clear. unfold aL, u1, w1, u2, w2. ring. Qed.
  Lemma Js_is (q2 : R) (k : jkey) : thr d <= q2 <= top d -> Js q2 k = cp_sign k * Jv' d q2 k.
  Proof using W.
    intros L. assert (Ph := phys_d d Wd q2 (proj1 L)). destruct (no_tens q2 L) as (_ & NT). unfold Js, Jb_, Jv'. fold d in NT |- *. rewrite !coefficients by exact Ph.
    set (m := l_ml d). set (h := l_hbar d q2) in *.
    rewrite (coeff_ext (flip q2 m m (same_state h) 1) _ _ _ _ _ (fun l => - flip q2 m m h 1 (reversed l))%C (fun l => - flip q2 m m h (-1) (reversed l))%C (fun l => - same_v q2 m m h (reversed l))%C (fun _ => RtoC 0) (scalar q2 m m h) (- pseudo q2 m m h)%C k).
    - rewrite coeff_reversed. rewrite (coeff_ext (flip q2 m m h 1) (flip q2 m m h (-1)) (same_v q2 m m h) (same_a q2 m m h) (scalar q2 m m h) (pseudo q2 m m h) (flip q2 m m h 1) (flip q2 m m h (-1)) (same_v q2 m m h) (fun _ => RtoC 0) (scalar q2 m m h) (pseudo q2 m m h) k); try (intros; reflexivity); [ring |].
      intros l. destruct (NT l) as (t1 & _). unfold same_a. rewrite aL_eq, t1. ring.
    - intros l. unfold flip, same_state. cbn [aV aA aT aTt]. ring.
    - intros l. unfold flip, same_state. cbn [aV aA aT aTt]. ring.
    - intros l. unfold same_v, same_state. cbn [aV aA aT aTt]. ring.
    - intros l. unfold same_a, same_state. cbn [aV aA aT aTt]. destruct (NT (reversed l)) as (t1 & _). rewrite aL_eq, t1. ring.
    - unfold scalar, same_state. cbn [aS]. reflexivity.
    - unfold pseudo, same_state. cbn [aP]. ring.
  Qed.
  Lemma ph_is : (cos (phase (- b_qp b)%C), sin (phase (- b_qp b)%C)) = (- b_qp b)%C.
  Proof using W.
    assert (U : Cmod (b_qp b) = 1) by apply W. assert (M : Cmod (- b_qp b)%C = 1) by (rewrite Cmod_opp; exact U).
    assert (N : (- b_qp b)%C <> RtoC 0) by (intros z; rewrite z, Cmod_0 in M; lra). destruct (phase_angle _ N) as (_ & E1 & E2). rewrite M in E1, E2. rewrite Rmult_1_l in E1, E2. rewrite <- E1, <- E2. destruct (- b_qp b)%C; reflexivity.
  Qed.
  Definition Jh (q2 : R) : jkey -> R := angularcoeffs_h_v (phase (- b_qp b)%C) (l_h d q2) (h_tilde (l_hbar d q2)) q2 (l_mB d) (l_mV d) (l_ml d) (l_ml d).
  Lemma Jh_is (q2 : R) (k : jkey) : thr d <= q2 <= top d -> Jh q2 k = Jx q2 k - Jv d q2 k - Js q2 k.
  Proof using W.
    intros L. assert (Ph := phys_d d Wd q2 (proj1 L)). destruct (no_tens q2 L) as (_ & NT). unfold Jh. rewrite polarisation, ph_is. unfold Jx, Jv, Js, Jb_. fold d.
    assert (E : angularcoeffs_general_v (h_tilde (l_hbar d q2)) q2 (l_mB d) (l_mV d) (l_ml d) (l_ml d) k = angularcoeffs_general_v (same_state (l_hbar d q2)) q2 (l_mB d) (l_mV d) (l_ml d) (l_ml d) k).
    { transitivity (Cmod (RtoC (-1)) ^ 2 * angularcoeffs_general_v (same_state (l_hbar d q2)) q2 (l_mB d) (l_mV d) (l_ml d) (l_ml d) k); [| rewrite Cmod_R, Rabs_left by lra; ring].
      rewrite <- J_scale by exact Ph. rewrite !coefficients by exact Ph. f_equal. replace (RtoC (-1)) with (- RtoC 1)%C by (rewrite <- RtoC_opp; f_equal; lra).
      apply coeff_ext; [intros l | intros l | intros l | intros l | |]; unfold flip, same_v, same_a, scalar, pseudo, amps_scale, same_state, h_tilde; cbn [aV aA aP aS aT aTt]; try (destruct (NT l) as (t1 & t2); destruct (NT (reversed l)) as (t3 & t4); rewrite ?t1, ?t2, ?t3, ?t4; destruct l; cbn [reversed]); ring. }
    assert (F : angularcoeffs_general_v (amps_add (l_h d q2) (- b_qp b)%C (h_tilde (l_hbar d q2))) q2 (l_mB d) (l_mV d) (l_ml d) (l_ml d) k = angularcoeffs_general_v (amps_add (l_h d q2) (b_qp b) (same_state (l_hbar d q2))) q2 (l_mB d) (l_mV d) (l_ml d) (l_ml d) k).
    { rewrite !coefficients by exact Ph. f_equal.
      apply coeff_ext; [intros l | intros l | intros l | intros l | |]; unfold flip, same_v, same_a, scalar, pseudo, amps_add, same_state, h_tilde; cbn [aV aA aP aS aT aTt]; try (destruct (NT l) as (t1 & t2); destruct (NT (reversed l)) as (t3 & t4); rewrite ?t1, ?t2, ?t3, ?t4; destruct l; cbn [reversed]); ring. }
    rewrite E, F. reflexivity.
  Qed.
  Lemma obs_in f q2 : thr d <= q2 <= top d -> bsvll_obs b f q2 = f y (Jv d q2) (Jv' d q2) (Jh q2).
  Proof using. intros L. unfold bsvll_obs. fold d. rewrite (in_allowed d q2 L). reflexivity. Qed.
  Lemma obs_outside f q2 : ~ (thr d <= q2 <= top d) -> bsvll_obs b f q2 = 0.
  Proof using. intros L. unfold bsvll_obs. fold d. rewrite (out_allowed d q2 L). reflexivity. Qed.
  (** a function computed by the program is a linear functional of the decays at all times *)
  Definition stands_for (f : R -> angcoeffs -> angcoeffs -> angcoeffs -> R) (c : jkey -> R) : Prop :=
    forall q2, thr d <= q2 <= top d -> f y (Jv d q2) (Jv' d q2) (Jh q2) = lin c (TT q2).
  Lemma S_is (q2 : R) (k : jkey) : thr d <= q2 <= top d -> cp_sign k = 1 -> S_theory_num_Bs y (Jv d q2) (Jv' d q2) (Jh q2) k = TT q2 k.
  Proof using W. intros L C. unfold S_theory_num_Bs, TT. rewrite (Jh_is q2 k L), (Js_is q2 k L), C, Rmult_1_l. reflexivity. Qed.
End B.
