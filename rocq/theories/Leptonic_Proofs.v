(** * Lemmas for leptonic decays *)
From Coq Require Import Reals Lra List.
From Coquelicot Require Import Coquelicot.
From Verif Require Import Base Basics_Model Basics_Spec Basics_Proofs Angular_Model Angular_Spec Angular_Proofs Angular_Proofs2 Angular_Proofs3 Decays_Model Decays_Spec Decays_Proofs DecaysBs_Proofs Leptonic_Model Leptonic_Spec.
Import ListNotations.
Local Open Scope R_scope.

(** ** kinematics *)
Lemma kallen_factors M m1 m2 : 0 <= m1 -> 0 <= m2 -> m1 + m2 <= M ->
  lambda_K (M ^ 2) (m1 ^ 2) (m2 ^ 2) = (M ^ 2 - (m1 + m2) ^ 2) * (M ^ 2 - (m1 - m2) ^ 2) /\ 0 <= (M ^ 2 - (m1 + m2) ^ 2) * (M ^ 2 - (m1 - m2) ^ 2).
Proof.
  intros H1 H2 H. assert (0 <= M ^ 2 - (m1 + m2) ^ 2) by nra. assert (0 <= M ^ 2 - (m1 - m2) ^ 2) by nra.
  assert (P : 0 <= (M ^ 2 - (m1 + m2) ^ 2) * (M ^ 2 - (m1 - m2) ^ 2)) by (apply Rmult_le_pos; assumption).
  split; [| exact P]. unfold lambda_K.
  assert (E : (M ^ 2) ^ 2 + (m1 ^ 2) ^ 2 + (m2 ^ 2) ^ 2 - 2 * (M ^ 2 * m1 ^ 2 + m1 ^ 2 * m2 ^ 2 + M ^ 2 * m2 ^ 2) = (M ^ 2 - (m1 + m2) ^ 2) * (M ^ 2 - (m1 - m2) ^ 2)) by ring.
  cbv zeta. rewrite E. destruct (Rlt_dec _ 0) as [c | c]; [lra | reflexivity].
Qed.
Lemma Cmod_scale (a : R) (z : C) : Cmod (RtoC a * z)%C ^ 2 = a ^ 2 * Cmod z ^ 2.
Proof. rewrite !cmod_sq. destruct z as [s t]. unfold Cmult, RtoC. cbn [fst snd]. ring. Qed.
Lemma Cmod_mult2 (a b : C) : Cmod (a * b)%C ^ 2 = Cmod a ^ 2 * Cmod b ^ 2.
Proof. rewrite Cmod_mult. ring. Qed.

Section BLL.
  Variable d : bqll.
  Lemma coef_is op l1 l2 : wc_of d l1 l2 op l1 l2 = coef d op l1 l2.
  Proof. unfold wc_of, coef. destruct (lep3_eqb l1 l2); [reflexivity | now rewrite Cplus_0_r]. Qed.
  Lemma amplitudes_are l1 l2 : allowed2 d l1 l2 ->
    amplitudes d (wc_of d l1 l2) l1 l2 =
    ((RtoC (sqrt (1 - (ll_m d l1 - ll_m d l2) ^ 2 / ll_mB d ^ 2) / ll_mB d) * line5 d l1 l2)%C,
     (RtoC (sqrt (1 - (ll_m d l1 + ll_m d l2) ^ 2 / ll_mB d ^ 2) / ll_mB d) * line1 d l1 l2)%C).
  Proof.
    intros (B & _ & _ & _ & Mb & Ms & _). unfold amplitudes. rewrite !coef_is. unfold line5, line1, chiral.
    set (b1 := sqrt (1 - (ll_m d l1 - ll_m d l2) ^ 2 / ll_mB d ^ 2)). set (b2 := sqrt (1 - (ll_m d l1 + ll_m d l2) ^ 2 / ll_mB d ^ 2)).
    replace (ll_mB d * ll_mb d / (ll_mb d + ll_mspec d)) with (ll_mB d ^ 2 * ll_mb d / (ll_mb d + ll_mspec d) * / ll_mB d) by (field; lra).
    unfold Rdiv at 2 6. rewrite (Rplus_comm (ll_m d l2)). unfold Rdiv. rewrite !RtoC_mult. f_equal; ring.
  Qed.
  Lemma modP l1 l2 : allowed2 d l1 l2 ->
    Cmod (fst (amplitudes d (wc_of d l1 l2) l1 l2)) ^ 2 = (1 - (ll_m d l1 - ll_m d l2) ^ 2 / ll_mB d ^ 2) / ll_mB d ^ 2 * Cmod (line5 d l1 l2) ^ 2 /\
    Cmod (snd (amplitudes d (wc_of d l1 l2) l1 l2)) ^ 2 = (1 - (ll_m d l1 + ll_m d l2) ^ 2 / ll_mB d ^ 2) / ll_mB d ^ 2 * Cmod (line1 d l1 l2) ^ 2.
  Proof.
    intros A. rewrite amplitudes_are by exact A. destruct A as (B & p1 & p2 & s & _). cbn [fst snd]. rewrite !Cmod_scale.
    assert (i : 0 < ll_mB d ^ 2) by (apply pow_lt; exact B).
    assert (h : forall z, 0 <= ll_mB d ^ 2 - z -> 0 <= 1 - z / ll_mB d ^ 2).
    { intros z Z. replace (1 - z / ll_mB d ^ 2) with ((ll_mB d ^ 2 - z) / ll_mB d ^ 2) by (field; lra). apply Rmult_le_pos; [exact Z | left; apply Rinv_0_lt_compat; exact i]. }
    assert (s1 : sqrt (1 - (ll_m d l1 - ll_m d l2) ^ 2 / ll_mB d ^ 2) ^ 2 = 1 - (ll_m d l1 - ll_m d l2) ^ 2 / ll_mB d ^ 2) by (apply pow2_sqrt, h; nra).
    assert (s2 : sqrt (1 - (ll_m d l1 + ll_m d l2) ^ 2 / ll_mB d ^ 2) ^ 2 = 1 - (ll_m d l1 + ll_m d l2) ^ 2 / ll_mB d ^ 2) by (apply pow2_sqrt, h; nra).
    split; unfold Rdiv at 1; rewrite Rpow_mult_distr, ?s1, ?s2; field; lra.
  Qed.
  Lemma inst_is wc l1 l2 : let '(p, s) := amplitudes d wc l1 l2 in 0 < ll_mB d -> 0 <= ll_m d l1 -> 0 <= ll_m d l2 -> ll_m d l1 + ll_m d l2 < ll_mB d ->
    br_inst d wc l1 l2 = ll_tau d * phase_space (ll_mB d) (ll_m d l1) (ll_m d l2) * ((coupling d * ll_f d) ^ 2 * ll_mB d ^ 4 / 2) * (Cmod p ^ 2 + Cmod s ^ 2).
  Proof.
    unfold br_inst. destruct (amplitudes d wc l1 l2) as [p s]. intros B p1 p2 L. unfold phase_space, coupling.
    rewrite (proj1 (kallen_factors (ll_mB d) (ll_m d l1) (ll_m d l2) p1 p2 ltac:(lra))).
    set (q := sqrt (_ * _)). set (W := Cmod p ^ 2 + Cmod s ^ 2). rewrite Cmod_mult2. rewrite Cmod_R, pow2_abs.
    pose proof PI_RGT_0. assert (0 < sqrt 2) by (apply sqrt_lt_R0; lra). field. repeat split; lra.
  Qed.
  Lemma rate_formula l1 l2 : allowed2 d l1 l2 ->
    bqll_inst d l1 l2 = ll_tau d * (phase_space (ll_mB d) (ll_m d l1) (ll_m d l2) * squared d l1 l2).
  Proof.
    intros A. destruct (modP l1 l2 A) as (EP & ES). unfold bqll_inst. pose proof (inst_is (wc_of d l1 l2) l1 l2) as E.
    destruct (amplitudes d (wc_of d l1 l2) l1 l2) as [p s]. cbn [fst snd] in *. destruct A as (B & p1 & p2 & L & _).
    rewrite E by assumption. rewrite EP, ES. unfold squared, pseudo_line, scalar_line, dot. field. lra.
  Qed.
  Lemma equal_amps l : allowed2 d l l -> amplitudes d (wc_of d l l) l l = (ampP d l, ampS d l).
  Proof.
    intros A. rewrite amplitudes_are by exact A. destruct A as (B & _). unfold ampP, ampS.
    replace (1 - (ll_m d l - ll_m d l) ^ 2 / ll_mB d ^ 2) with 1 by (field; lra). rewrite sqrt_1.
    replace (1 - (ll_m d l + ll_m d l) ^ 2 / ll_mB d ^ 2) with (1 - 4 * ll_m d l ^ 2 / ll_mB d ^ 2) by (field; lra).
    rewrite !RtoC_div by lra. f_equal; unfold Cdiv; ring.
  Qed.
End BLL.

(** ** oscillations *)
Section Osc.
  Variables (u : C) (x y : R) (P S : C).
  Hypothesis U : Cmod u = 1.
  Hypothesis Y : -1 < y < 1.
  Let N := Cmod P ^ 2 + Cmod S ^ 2.
  Let D := fst (P * P)%C - fst (S * S)%C.
  Let fx := untagged u x y P S.
  Lemma one_helicity (h t : R) : h = 1 \/ h = -1 ->
    Cmod (g_plus x y t * Amp u P S h + u * g_minus x y t * Abar P S h)%C ^ 2 + Cmod (g_plus x y t * Abar P S h + g_minus x y t / u * Amp u P S h)%C ^ 2
    = (exp (- (1 + y) * t) + exp (- (1 - y) * t)) / 2 * (Cmod (Abar P S h) ^ 2 + Cmod (Amp u P S h) ^ 2)
    + (exp (- (1 + y) * t) - exp (- (1 - y) * t)) / 2 * (Cmod (Amp u P S h + u * Abar P S h)%C ^ 2 - Cmod (Abar P S h) ^ 2 - Cmod (Amp u P S h) ^ 2).
  Proof using U.
    intros Hh. pose proof (bil_time (g_plus x y t) (g_minus x y t) u (Amp u P S h) (Abar P S h) (Amp u P S h) (Abar P S h) U) as E.
    destruct (g_sum x y t) as (G1 & G2). rewrite G1, G2 in E.
    assert (M : forall z : C, bil z z = RtoC (Cmod z ^ 2)).
    { intros z. rewrite cmod_sq. unfold bil. destruct z as [s v]. unfold Cconj, Cmult, RtoC. cbn [fst snd]. f_equal; ring. }
    rewrite !M in E. repeat first [rewrite <- RtoC_mult in E | rewrite <- RtoC_minus in E | rewrite <- RtoC_plus in E].
    apply RtoC_inj in E. rewrite E. ring.
  Qed.
  Lemma half_mod (z : C) : Cmod (z / RtoC (sqrt 2))%C ^ 2 = Cmod z ^ 2 / 2.
  Proof.
    assert (s2 : 0 < sqrt 2) by (apply sqrt_lt_R0; lra). rewrite Cmod_div by (intros z0; apply RtoC_inj in z0; lra). rewrite Cmod_R, Rabs_pos_eq by lra.
    unfold Rdiv. rewrite Rpow_mult_distr, pow_inv. rewrite pow2_sqrt by lra. reflexivity.
  Qed.
  Lemma unit_half (z : C) : Cmod (u * z / RtoC (sqrt 2))%C ^ 2 = Cmod z ^ 2 / 2.
  Proof using U. rewrite half_mod, Cmod_mult2, U. field. Qed.
  Lemma untagged_is (t : R) : fx t = (exp (- (1 + y) * t) + exp (- (1 - y) * t)) / 2 * N + (exp (- (1 + y) * t) - exp (- (1 - y) * t)) / 2 * (- D).
  Proof using U.
    unfold fx, untagged, rate_B, rate_Bbar. pose proof (one_helicity 1 t (or_introl eq_refl)) as E1. pose proof (one_helicity (-1) t (or_intror eq_refl)) as E2.
    set (e1 := exp _) in *. set (e2 := exp _) in *.
    match goal with |- (?a + ?b + (?c + ?e)) / 2 = _ => transitivity ((a + c + (b + e)) / 2); [field | rewrite E1, E2] end. clear E1 E2.
    assert (K : forall h : R, Cmod (Amp u P S h + u * Abar P S h)%C ^ 2 = Cmod (- RtoC h * Cconj P + Cconj S + (RtoC h * P + S))%C ^ 2 / 2).
    { intros h. rewrite <- unit_half. unfold Amp, Abar. do 2 f_equal. unfold Cdiv. ring. }
    rewrite !K. unfold Amp. rewrite !unit_half. unfold Abar. rewrite !half_mod. unfold N, D. clearbody e1 e2. clear - P S. rewrite !cmod_sq.
    destruct P as [a b], S as [c e]. unfold Cconj, Cmult, Cplus, Copp, RtoC. cbn [fst snd]. field.
  Qed.
  Lemma all_is_ : all_decays u x y P S ((N + D * y) / (1 - y ^ 2)).
  Proof using U Y.
    unfold all_decays. replace ((N + D * y) / (1 - y ^ 2)) with (1 / (1 - y ^ 2) * N - y / (1 - y ^ 2) * (- D)) by (unfold Rdiv; ring).
    eapply is_lim_ext; [| exact (time_lim y N (- D) Y)]. intros T. cbv beta. apply ext_R. intros t. symmetry. apply untagged_is.
  Qed.
  (** the time-weighted integral *)
  Lemma texp_int (c T : R) : c <> 0 -> RInt (fun t => t * exp (- c * t)) 0 T = 1 / c ^ 2 - (T / c + 1 / c ^ 2) * exp (- c * T) /\ ex_RInt (fun t => t * exp (- c * t)) 0 T.
  Proof.
    intros C0. assert (Df : forall v, is_derive (fun t => - (t / c + 1 / c ^ 2) * exp (- c * t)) v (v * exp (- c * v))) by (intros v; auto_derive; [exact I | field; exact C0]).
    assert (K : forall v, continuous (fun t => t * exp (- c * t)) v) by (intros v; apply (ex_derive_continuous (fun t => t * exp (- c * t))); auto_derive; exact I).
    split; [transitivity (- (T / c + 1 / c ^ 2) * exp (- c * T) - - (0 / c + 1 / c ^ 2) * exp (- c * 0)); [exact (RInt_der (fun t => - (t / c + 1 / c ^ 2) * exp (- c * t)) (fun t => t * exp (- c * t)) 0 T Df K) | rewrite Rmult_0_r, exp_0; toR; field; exact C0] |].
    apply (ex_RInt_continuous (V := R_CompleteNormedModule)). intros v _. apply K.
  Qed.
  Lemma texp_lim (c : R) : 0 < c -> is_lim (fun T => T * exp (- c * T)) p_infty 0.
  Proof.
    intros Cp. apply (is_lim_ext_loc (fun T => / c * / (exp (c * T) / (c * T)))).
    { exists 0. intros T HT. rewrite <- (Ropp_involutive (c * T)) at 1. rewrite exp_Ropp. replace (- (c * T)) with (- c * T) by ring. pose proof (exp_pos (- c * T)). field. repeat split; lra. }
    replace (Finite 0) with (Rbar_mult (/ c) (Rbar_inv p_infty)) by (cbn; f_equal; ring).
    apply is_lim_scal_l. apply is_lim_inv; [| discriminate].
    apply (is_lim_comp (fun v => exp v / v) (fun T => c * T) p_infty p_infty p_infty); [apply is_lim_div_exp_p | | exists 0; intros; discriminate].
    replace p_infty with (Rbar_mult c p_infty) at 2; [apply is_lim_scal_l, is_lim_id |].
    unfold Rbar_mult, Rbar_mult'. destruct (Rle_dec 0 c) as [h | h]; [| exfalso; lra]. destruct (Rle_lt_or_eq_dec 0 c h) as [h' | h']; [reflexivity | exfalso; lra].
  Qed.
  Lemma times_is : all_times u x y P S ((N * (1 + y ^ 2) + 2 * D * y) / (1 - y ^ 2) ^ 2).
  Proof using U Y.
    assert (p1 : 1 + y <> 0) by lra. assert (p2 : 1 - y <> 0) by lra. unfold all_times.
    apply (is_lim_ext (fun T => (N - D) / 2 * (1 / (1 + y) ^ 2 - (T / (1 + y) + 1 / (1 + y) ^ 2) * exp (- (1 + y) * T)) + (N + D) / 2 * (1 / (1 - y) ^ 2 - (T / (1 - y) + 1 / (1 - y) ^ 2) * exp (- (1 - y) * T)))).
    - intros T. destruct (texp_int (1 + y) T p1) as (E1 & I1). destruct (texp_int (1 - y) T p2) as (E2 & I2).
      rewrite (ext_R (fun t => t * untagged u x y P S t) (fun t => (N - D) / 2 * (t * exp (- (1 + y) * t)) + (N + D) / 2 * (t * exp (- (1 - y) * t)))) by (intros t; fold fx; rewrite untagged_is; toR; field).
      rewrite (RI_plus (fun t => (N - D) / 2 * (t * exp (- (1 + y) * t))) (fun t => (N + D) / 2 * (t * exp (- (1 - y) * t)))) by (apply int_scal; assumption).
      rewrite (RI_scal (fun t => t * exp (- (1 + y) * t))) by exact I1. rewrite (RI_scal (fun t => t * exp (- (1 - y) * t))) by exact I2. rewrite E1, E2. reflexivity.
    - replace ((N * (1 + y ^ 2) + 2 * D * y) / (1 - y ^ 2) ^ 2) with ((N - D) / 2 * (1 / (1 + y) ^ 2 - (0 / (1 + y) + 0 / (1 + y) ^ 2)) + (N + D) / 2 * (1 / (1 - y) ^ 2 - (0 / (1 - y) + 0 / (1 - y) ^ 2))).
      2: { field. replace (1 - y ^ 2) with ((1 + y) * (1 - y)) by ring. repeat split; try assumption. apply Rmult_integral_contrapositive_currified; assumption. }
      assert (K : forall c e, 0 < c -> is_lim (fun T => e * (1 / c ^ 2 - (T / c + 1 / c ^ 2) * exp (- c * T))) p_infty (e * (1 / c ^ 2 - (0 / c + 0 / c ^ 2)))).
      { intros c e Cp. apply (is_lim_scal_l _ e p_infty (Finite (1 / c ^ 2 - (0 / c + 0 / c ^ 2)))).
        apply (is_lim_minus' (fun _ => 1 / c ^ 2) (fun T => (T / c + 1 / c ^ 2) * exp (- c * T)) p_infty (1 / c ^ 2) (0 / c + 0 / c ^ 2)); [apply is_lim_const |].
        apply (is_lim_ext (fun T => / c * (T * exp (- c * T)) + / c ^ 2 * exp (- c * T))); [intros T; field; lra |].
        replace (0 / c + 0 / c ^ 2) with (/ c * 0 + / c ^ 2 * 0) by (field; lra).
        apply (is_lim_plus' (fun T => / c * (T * exp (- c * T))) (fun T => / c ^ 2 * exp (- c * T))); [exact (is_lim_scal_l _ (/ c) p_infty (Finite 0) (texp_lim c Cp)) | exact (is_lim_scal_l _ (/ c ^ 2) p_infty (Finite 0) (exp_lim c Cp))]. }
      exact (is_lim_plus' _ _ p_infty _ _ (K (1 + y) ((N - D) / 2) ltac:(lra)) (K (1 - y) ((N + D) / 2) ltac:(lra))).
  Qed.
End Osc.

(** ** P -> l nu *)
Section LNU.
  Variable d : plnu.
  Hypothesis W : lnu_ok d.
  Lemma general_is (sm ml q1 q2 dl : R) (l nu : lep3) : 0 < ml < pl_mP d -> 0 < q1 + q2 ->
    br_plnu_general ml (pl_mP d) (pl_GF d) (pl_tau d) (pl_f d) (add_sm sm (lep3_eqb l nu) (fun op => pl_np d op l nu)) (pl_V d) q1 q2 dl
    = pl_tau d * (phase_space (pl_mP d) ml 0 * squared_lnu d sm ml q1 q2 l nu * (1 + dl)).
  Proof using.
    intros (m0 & mP) Q. unfold br_plnu_general.
    assert (E : forall op, add_sm sm (lep3_eqb l nu) (fun op => pl_np d op l nu) op = fc d sm op l nu).
    { intros op. unfold add_sm, fc. destruct op, (lep3_eqb l nu); try reflexivity; symmetry; apply Cplus_0_r. }
    rewrite !E. unfold squared_lnu, dot. assert (EC : current d sm ml q1 q2 l nu = (RtoC ml * ((fc d sm FVL l nu - fc d sm FVR l nu) + RtoC (pl_mP d ^ 2 / ml / (q1 + q2)) * (fc d sm FSR l nu - fc d sm FSL l nu)))%C).
    { unfold current. replace (RtoC (pl_mP d ^ 2 / (q1 + q2))) with (RtoC ml * RtoC (pl_mP d ^ 2 / ml / (q1 + q2)))%C; [ring | rewrite <- RtoC_mult; f_equal; field; lra]. }
    rewrite EC, Cmod_scale. set (X := Cmod (_ + _)%C ^ 2). set (v := Cmod (pl_V d)). unfold phase_space.
    assert (Es : sqrt ((pl_mP d ^ 2 - (ml + 0) ^ 2) * (pl_mP d ^ 2 - (ml - 0) ^ 2)) = pl_mP d ^ 2 - ml ^ 2).
    { replace ((pl_mP d ^ 2 - (ml + 0) ^ 2) * (pl_mP d ^ 2 - (ml - 0) ^ 2)) with ((pl_mP d ^ 2 - ml ^ 2) ^ 2) by ring. apply sqrt_pow2. nra. }
    rewrite Es. assert (s2 : sqrt 2 ^ 2 = 2) by (apply pow2_sqrt; lra). pose proof PI_RGT_0. assert (0 < sqrt 2) by (apply sqrt_lt_R0; lra).
    replace ((4 * pl_GF d / sqrt 2 * v * (pl_f d / 2)) ^ 2) with (4 * pl_GF d ^ 2 * v ^ 2 * pl_f d ^ 2 / sqrt 2 ^ 2) by (field; lra). rewrite s2. field. split; lra.
  Qed.
  Lemma br1_is (P : charged) (l nu : lep3) : pl_m d l < pl_mP d -> P <> Dplus -> P <> Ds -> br1 d P l nu = pl_tau d * width_lnu d P l nu.
  Proof using W.
    intros L D1 D2. destruct W as (Wm & _ & _ & _ & _ & _ & Wb & Wc & Ws & Wd & Wu). pose proof (Wm l) as m0. unfold br1, width_lnu, radiative.
    destruct P; cbn [quarks fst snd sm_of]; try (exfalso; now (apply D1 || apply D2)); rewrite general_is by lra; try reflexivity; replace (1 + 0) with 1 by ring; reflexivity.
  Qed.
  Lemma taup_is (P : charged) (nu : lep3) : P = Kplus \/ P = piplus -> pl_mP d < pl_m d Ltau -> taup1 d P nu = pl_tautau d * width_taup d P nu.
  Proof using W.
    intros HP L. destruct W as (Wm & WP & _ & _ & _ & _ & Wb & Wc & Ws & Wd & Wu). pose proof (Wm Ltau) as m0. unfold taup1, width_taup.
    set (sm := pl_CVLSM d * (pl_GFeff d / pl_GF d)).
    assert (E : forall op, add_sm sm (lep3_eqb nu Ltau) (fun op => pl_np d op Ltau nu) op = fc d sm op Ltau nu).
    { intros op. unfold add_sm, fc. replace (lep3_eqb Ltau nu) with (lep3_eqb nu Ltau) by (destruct nu; reflexivity). destruct op, (lep3_eqb nu Ltau); try reflexivity; symmetry; apply Cplus_0_r. }
    rewrite !E. set (mq := match P with Kplus => _ | _ => _ end). assert (Q : fst (quarks d P) + snd (quarks d P) = mq /\ 0 < mq) by (unfold mq; destruct HP as [-> | ->]; cbn [quarks fst snd]; split; lra).
    unfold current. rewrite (proj1 Q). destruct Q as (_ & Q). f_equal. unfold GammaFsf, Gamma2. rewrite Cmod_0.
    set (VA := (fc d sm FVL Ltau nu - fc d sm FVR Ltau nu)%C). set (SP := (fc d sm FSR Ltau nu - fc d sm FSL Ltau nu)%C).
    replace (RtoC (- sqrt 2 * pl_GF d) * pl_V d * (VA + RtoC (pl_mP d ^ 2 / pl_m d Ltau / mq) * SP) * RtoC (pl_f d * pl_m d Ltau))%C
      with (RtoC (- sqrt 2 * pl_GF d * pl_f d) * (pl_V d * (RtoC (pl_m d Ltau) * VA + RtoC (pl_mP d ^ 2 / mq) * SP)))%C.
    2: { replace (RtoC (pl_mP d ^ 2 / mq)) with (RtoC (pl_m d Ltau) * RtoC (pl_mP d ^ 2 / pl_m d Ltau / mq))%C by (rewrite <- RtoC_mult; f_equal; field; lra).
         rewrite (RtoC_mult (- sqrt 2 * pl_GF d)), (RtoC_mult (pl_f d)). ring. }
    set (G := (RtoC (- sqrt 2 * pl_GF d * pl_f d) * _)%C).
    assert (EG : Cmod G ^ 2 = 2 * pl_GF d ^ 2 * pl_f d ^ 2 * (Cmod (pl_V d) ^ 2 * Cmod (RtoC (pl_m d Ltau) * VA + RtoC (pl_mP d ^ 2 / mq) * SP)%C ^ 2)).
    { unfold G. rewrite Cmod_scale, Cmod_mult2. set (X := _ * Cmod _ ^ 2). replace ((- sqrt 2 * pl_GF d * pl_f d) ^ 2) with (sqrt 2 ^ 2 * pl_GF d ^ 2 * pl_f d ^ 2) by ring. rewrite pow2_sqrt by lra. ring. }
    rewrite EG. set (X := Cmod (_ + _)%C ^ 2). set (v := Cmod (pl_V d)). unfold phase_space.
    destruct (kallen_factors (pl_m d Ltau) 0 (pl_mP d) ltac:(lra) ltac:(lra) ltac:(lra)) as (EK & _). rewrite EK.
    replace ((pl_m d Ltau ^ 2 - (0 + pl_mP d) ^ 2) * (pl_m d Ltau ^ 2 - (0 - pl_mP d) ^ 2)) with ((pl_m d Ltau ^ 2 - (pl_mP d + 0) ^ 2) * (pl_m d Ltau ^ 2 - (pl_mP d - 0) ^ 2)) by ring.
    set (q := sqrt (_ * _)). replace ((4 * pl_GF d / sqrt 2 * v * (pl_f d / 2)) ^ 2) with (4 * pl_GF d ^ 2 * v ^ 2 * pl_f d ^ 2 / sqrt 2 ^ 2) by (field; assert (0 < sqrt 2) by (apply sqrt_lt_R0; lra); lra).
    rewrite pow2_sqrt by lra. pose proof PI_RGT_0. field. split; lra.
  Qed.
  Lemma width_pos (P : charged) (l nu : lep3) : pl_m d l < pl_mP d -> 0 <= radiative d P l -> 0 <= width_lnu d P l nu.
  Proof using W.
    intros L R. destruct W as (Wm & WP & _). pose proof (Wm l) as m0. pose proof PI_RGT_0. unfold width_lnu, squared_lnu, phase_space, dot.
    apply Rmult_le_pos; [| exact R]. apply Rmult_le_pos.
    - apply Rmult_le_pos; [apply sqrt_pos | left; apply Rinv_0_lt_compat; apply Rmult_lt_0_compat; [lra | apply pow_lt; exact WP]].
    - apply Rmult_le_pos; [| apply pow2_ge_0]. apply Rmult_le_pos; [apply pow2_ge_0 | nra].
  Qed.
End LNU.

(** ** generic fermion decays *)
Lemma parity2 (p : R) (a b : C) : Cmod (parity_sum p a b) ^ 2 = Cmod (a + RtoC p * b)%C ^ 2 / 2.
Proof. unfold parity_sum. apply half_mod. Qed.
Lemma Gamma2_is (W M m1 m2 : R) : 0 <= m1 -> 0 <= m2 -> m1 + m2 <= M -> Gamma2 W M m1 m2 = phase_space M m1 m2 * W.
Proof. intros a b c. unfold Gamma2, phase_space. rewrite (proj1 (kallen_factors M m1 m2 a b c)). reflexivity. Qed.
Lemma squared_s_is (M ms mf : R) (gL gR : C) :
  ((Cmod gL ^ 2 + Cmod gR ^ 2) * (M ^ 2 + mf ^ 2 - ms ^ 2) + 4 * M * mf * (fst gL * fst gR + snd gL * snd gR)) / 2 = squared_s M ms mf gL gR.
Proof. unfold squared_s. rewrite !parity2, !cmod_sq. destruct gL as [a b], gR as [c e]. unfold Cplus, Cmult, RtoC. cbn [fst snd]. field. Qed.
Lemma nz_false (z : C) : nz z = false -> z = RtoC 0.
Proof. unfold nz. destruct z as [a b]. cbn [fst snd]. destruct (Req_EM_T a 0) as [-> | h]; [destruct (Req_EM_T b 0) as [-> | h'] |]; intros; try discriminate. reflexivity. Qed.
Lemma squared_v1_is (sigma mv : R) (s t : C) : 0 < mv ->
  squared_v1 sigma mv s t = (sigma ^ 2 / mv ^ 2 + 2) * Cmod s ^ 2 + (mv ^ 2 + 2 * sigma ^ 2) * Cmod t ^ 2 + 6 * sigma * fst (s * Cconj t)%C.
Proof. intros V. unfold squared_v1. rewrite !cmod_sq. destruct s as [a b], t as [c e]. unfold Cplus, Cmult, Cconj, RtoC. cbn [fst snd]. field. lra. Qed.
(** the expression without the tests for vanishing couplings *)
Definition plain_v (M mv mf : R) (gL gR d e : C) : R :=
  ((Cmod gL ^ 2 + Cmod gR ^ 2) * ((mf ^ 2 - M ^ 2) ^ 2 / mv ^ 2 + mf ^ 2 + M ^ 2 - 2 * mv ^ 2) - 12 * mf * M * re (gR * Cconj gL)%C) / 2
  + mv ^ 2 / 2 * ((Cmod e ^ 2 + Cmod d ^ 2) * (2 * (mf ^ 2 - M ^ 2) ^ 2 / mv ^ 2 - mf ^ 2 - M ^ 2 - mv ^ 2) - 12 * mf * M * re (d * Cconj e)%C)
  + (3 * M * (M ^ 2 - mf ^ 2 - mv ^ 2) * re (gL * Cconj d + gR * Cconj e)%C + 3 * mf * (mf ^ 2 - M ^ 2 - mv ^ 2) * re (gR * Cconj d + gL * Cconj e)%C).
Lemma plain_v_is (M mv mf : R) (gL gR gTL gtTL gTR gtTR : C) : 0 < mv ->
  plain_v M mv mf gL gR (gTR + gtTR)%C (gTL - gtTL)%C = squared_v M mv mf gL gR gTL gtTL gTR gtTR.
Proof.
  intros V. unfold squared_v. set (c := (gTR + gtTR)%C). set (e := (gTL - gtTL)%C). clearbody c e. cbv zeta. rewrite !squared_v1_is by exact V. rewrite !parity2.
  assert (X : forall (p : R) (a b s t : C), fst (parity_sum p a b * Cconj (parity_sum p s t))%C = fst ((a + RtoC p * b) * Cconj (s + RtoC p * t))%C / 2).
  { intros p a b s t. unfold parity_sum. assert (s2 : 0 < sqrt 2) by (apply sqrt_lt_R0; lra). unfold Cdiv. rewrite <- RtoC_inv by lra.
    set (z := (a + _)%C). set (w := (s + _)%C). assert (H : (/ sqrt 2) * (/ sqrt 2) = / 2) by (rewrite <- Rinv_mult; f_equal; apply sqrt_sqrt; lra).
    destruct z as [z1 z2], w as [w1 w2]. unfold Cmult, Cconj, RtoC. cbn [fst snd]. set (i := / sqrt 2) in *. 
    replace (_ - _) with (i * i * (z1 * w1 + z2 * w2)) by ring. rewrite H. field. }
  rewrite !X, !cmod_sq. unfold plain_v, re. rewrite !cmod_sq. destruct gL as [a1 a2], gR as [b1 b2], c as [c1 c2], e as [e1 e2].
  unfold Cplus, Cmult, Cconj, RtoC. cbn [fst snd]. field. lra.
Qed.
Lemma Fvf_is (M mv mf : R) (gL gR gTL gtTL gTR gtTR : C) : 0 < mv -> 0 <= mf -> mf + mv <= M ->
  GammaFvf M mv mf gL gR gTL gtTL gTR gtTR = phase_space M mf mv * squared_v M mv mf gL gR gTL gtTL gTR gtTR.
Proof.
  intros V F L. unfold GammaFvf. destruct (Req_EM_T mv 0) as [z | z]; [lra |]. rewrite Gamma2_is by lra. f_equal. rewrite <- plain_v_is by exact V.
  assert (Z2 : Cmod (RtoC 0) ^ 2 = 0) by (rewrite Cmod_0; ring).
  assert (P0 : forall w : C, re (RtoC 0 * w)%C = 0) by (intros [w1 w2]; unfold re, Cmult, RtoC; cbn [fst snd]; ring).
  assert (P1 : forall w : C, re (w * Cconj (RtoC 0))%C = 0) by (intros [w1 w2]; unfold re, Cmult, Cconj, RtoC; cbn [fst snd]; ring).
  assert (P2 : forall v w : C, re (RtoC 0 * v + RtoC 0 * w)%C = 0) by (intros [v1 v2] [w1 w2]; unfold re, Cplus, Cmult, RtoC; cbn [fst snd]; ring).
  assert (P3 : forall v w : C, re (v * Cconj (RtoC 0) + w * Cconj (RtoC 0))%C = 0) by (intros [v1 v2] [w1 w2]; unfold re, Cplus, Cmult, Cconj, RtoC; cbn [fst snd]; ring).
  assert (Zp : (RtoC 0 + RtoC 0)%C = RtoC 0) by ring. assert (Zm : (RtoC 0 - RtoC 0)%C = RtoC 0) by ring.
  destruct (nz gL || nz gR)%bool eqn:EV; destruct (nz gTL || (nz gtTL || (nz gTR || nz gtTR)))%bool eqn:ET; cbn [andb]; unfold plain_v.
  - ring.
  - repeat apply Bool.orb_false_elim in ET as (? & ET). repeat match goal with H : nz ?z = false |- _ => apply nz_false in H; subst z end.
    rewrite Zp, Zm, !P1, !P3, Z2. unfold Rdiv; ring.
  - apply Bool.orb_false_elim in EV as (h1 & h2). apply nz_false in h1. apply nz_false in h2. subst gL gR. rewrite !P0, !P2, Z2. unfold Rdiv; ring.
  - apply Bool.orb_false_elim in EV as (h1 & h2). apply nz_false in h1. apply nz_false in h2. subst gL gR.
    repeat apply Bool.orb_false_elim in ET as (? & ET). repeat match goal with H : nz ?z = false |- _ => apply nz_false in H; subst z end.
    rewrite Zp, Zm, !P0, !P2, Z2. unfold Rdiv; ring.
Qed.

(** ** massless vector: coupling to the field strength only *)
Lemma Fvf_photon (M mf : R) (gTL gtTL gTR gtTR : C) : 0 <= mf < M ->
  GammaFvf M 0 mf (RtoC 0) (RtoC 0) gTL gtTL gTR gtTR = phase_space M mf 0 * ((M ^ 2 - mf ^ 2) ^ 2 * (Cmod (gTL - gtTL)%C ^ 2 + Cmod (gTR + gtTR)%C ^ 2)).
Proof.
  intros (F & L). unfold GammaFvf. destruct (Req_EM_T 0 0) as [_ | z]; [| exfalso; apply z; reflexivity].
  assert (N0 : nz (RtoC 0) = false) by (unfold nz, RtoC; cbn [fst snd]; destruct (Req_EM_T 0 0) as [_ | z]; [reflexivity | exfalso; apply z; reflexivity]).
  rewrite N0. cbn [orb andb]. rewrite Gamma2_is by lra. f_equal.
  assert (E : Cmod gTL ^ 2 + Cmod gTR ^ 2 + Cmod gtTL ^ 2 + Cmod gtTR ^ 2 - 2 * (re (gTL * Cconj gtTL)%C - re (gTR * Cconj gtTR)%C) = Cmod (gTL - gtTL)%C ^ 2 + Cmod (gTR + gtTR)%C ^ 2).
  { rewrite !cmod_sq. destruct gTL as [a b], gTR as [c e], gtTL as [a' b'], gtTR as [c' e']. unfold re, Cminus, Cplus, Copp, Cmult, Cconj. cbn [fst snd]. ring. }
  rewrite <- E. destruct (nz gTL || (nz gtTL || (nz gTR || nz gtTR)))%bool eqn:ET; [ring |].
  repeat apply Bool.orb_false_elim in ET as (? & ET). repeat match goal with H : nz ?z = false |- _ => apply nz_false in H; subst z end.
  rewrite Cmod_0. unfold re, Cmult, Cconj, RtoC. cbn [fst snd]. ring.
Qed.

(** ** the functions F and G of three-body decays *)
Lemma below_one (f f' : R -> R) (x : R) : 0 < x < 1 -> (forall t, 0 < t -> is_derive f t (f' t)) -> f 1 = 0 -> exists c, x < c < 1 /\ f x = - f' c * (1 - x).
Proof.
  intros X D E. destruct (MVT_cor2 f f' x 1 ltac:(lra)) as (c & E' & Hc); [intros t Ht; apply is_derive_Reals, D; lra |].
  exists c. split; [exact Hc |]. rewrite E in E'. lra.
Qed.
Lemma F3_pos (x : R) : 0 < x < 1 -> 0 < F3 x.
Proof.
  assert (D3 : forall t, 0 < t < 1 -> 0 < 48 * t - 12 * t ^ 2 - 24 * ln t - 36).
  { intros t T. destruct (below_one (fun t => 48 * t - 12 * t ^ 2 - 24 * ln t - 36) (fun t => 48 - 24 * t - 24 / t) t T) as (c & Hc & E).
    - intros v V. auto_derive; [exact V | field; lra].
    - cbv beta. rewrite ln_1. ring.
    - cbv beta in E. rewrite E. apply Rmult_lt_0_compat; [| lra]. replace (- (48 - 24 * c - 24 / c)) with (24 * (1 - c) ^ 2 / c) by (field; lra).
      apply Rmult_lt_0_compat; [apply Rmult_lt_0_compat; [lra | apply pow_lt; lra] | apply Rinv_0_lt_compat; lra]. }
  assert (D2 : forall t, 0 < t < 1 -> - 8 + 24 * t ^ 2 - 4 * t ^ 3 - 24 * t * ln t - 12 * t < 0).
  { intros t T. destruct (below_one (fun t => - 8 + 24 * t ^ 2 - 4 * t ^ 3 - 24 * t * ln t - 12 * t) (fun t => 48 * t - 12 * t ^ 2 - 24 * ln t - 36) t T) as (c & Hc & E).
    - intros v V. auto_derive; [exact V | field; lra].
    - cbv beta. rewrite ln_1. ring.
    - cbv beta in E. rewrite E. pose proof (D3 c ltac:(lra)) as P. assert (0 < (48 * c - 12 * c ^ 2 - 24 * ln c - 36) * (1 - t)) by (apply Rmult_lt_0_compat; lra). lra. }
  intros X. destruct (below_one F3 (fun t => - 8 + 24 * t ^ 2 - 4 * t ^ 3 - 24 * t * ln t - 12 * t) x X) as (c & Hc & E).
  - intros v V. unfold F3. auto_derive; [exact V | field; lra].
  - unfold F3. rewrite ln_1. ring.
  - rewrite E. apply Rmult_lt_0_compat; [| lra]. pose proof (D2 c ltac:(lra)). lra.
Qed.
(** for light final leptons *)
Lemma ln_bound (r : R) : 0 < r -> - ln r <= / (8 * r) + 2.
Proof.
  intros P. assert (H : forall z, 0 < z -> ln z <= z - 1). { intros z Z. destruct (exp_ineq1_le (ln z)) as [h | h]; rewrite exp_ln in h by exact Z; lra. }
  assert (P8 : 0 < / (8 * r)) by (apply Rinv_0_lt_compat; lra). pose proof (H _ P8) as H1. rewrite ln_Rinv, ln_mult in H1 by lra.
  assert (E8 : ln 8 = 3 * ln 2) by (replace 8 with (2 * (2 * 2)) by ring; rewrite !ln_mult by lra; ring). pose proof (H 2 ltac:(lra)). lra.
Qed.
Lemma light_F3 (r : R) : 0 < r <= / 16 -> F3 (r ^ 2) <= 1 /\ 4 / 5 <= G3 (r ^ 2).
Proof.
  intros (P & L). pose proof (ln_bound r P) as B. assert (L0 : ln (r ^ 2) = 2 * ln r) by (simpl; rewrite Rmult_1_r, ln_mult by lra; ring).
  assert (Bl : - ln (r ^ 2) <= / (4 * r) + 4) by (rewrite L0; replace (/ (4 * r)) with (2 * / (8 * r)) by (field; lra); lra).
  assert (r2 : 0 < r ^ 2) by (apply pow_lt; exact P).
  assert (Bx : - (r ^ 2 * ln (r ^ 2)) <= r / 4 + 4 * r ^ 2).
  { replace (r / 4 + 4 * r ^ 2) with (r ^ 2 * (/ (4 * r) + 4)) by (field; lra). rewrite Ropp_mult_distr_r. apply Rmult_le_compat_l; lra. }
  assert (N : 0 <= - ln (r ^ 2)). { assert (ln (r ^ 2) < ln 1) by (apply ln_increasing; [exact r2 | nra]). rewrite ln_1 in H. lra. }
  assert (Nx : 0 <= - (r ^ 2 * ln (r ^ 2))) by (rewrite Ropp_mult_distr_r; apply Rmult_le_pos; lra).
  unfold F3, G3. set (x := r ^ 2) in *. set (w := - (x * ln x)) in *.
  replace (1 - 8 * x + 8 * x ^ 3 - x ^ 4 - 12 * x ^ 2 * ln x) with (1 - 8 * x + 8 * x ^ 3 - x ^ 4 + 12 * x * w) by (unfold w; ring).
  replace (1 + 9 * x - 9 * x ^ 2 - x ^ 3 + 6 * x * ln x + 6 * x ^ 2 * ln x) with (1 + 9 * x - 9 * x ^ 2 - x ^ 3 - 6 * w - 6 * x * w) by (unfold w; ring).
  assert (X : x <= / 256). { unfold x. replace (/ 256) with (/ 16 * / 16) by field. simpl. rewrite Rmult_1_r. apply Rmult_le_compat; lra. }
  assert (Wb : w <= / 32) by (fold x in Bx; fold w in Bx; unfold x in Bx at 1; fold x in Bx; nra). clearbody w x. split.
  - assert (0 <= x * (/ 32 - w)) by (apply Rmult_le_pos; lra). assert (0 <= x ^ 4) by (apply pow_le; lra).
    assert (x ^ 3 <= x * / 65536). { replace (x ^ 3) with (x * (x * x)) by ring. apply Rmult_le_compat_l; [lra |]. replace (/ 65536) with (/ 256 * / 256) by field. apply Rmult_le_compat; lra. } lra.
  - assert (x * w <= / 256 * / 32) by (apply Rmult_le_compat; lra). assert (0 <= x * (/ 256 - x)) by (apply Rmult_le_pos; lra).
    assert (x ^ 3 <= x * / 65536). { replace (x ^ 3) with (x * (x * x)) by ring. apply Rmult_le_compat_l; [lra |]. replace (/ 65536) with (/ 256 * / 256) by field. apply Rmult_le_compat; lra. }
    assert (x ^ 2 = x * x) by ring. lra.
Qed.
