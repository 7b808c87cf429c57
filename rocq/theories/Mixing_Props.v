(** * Meson-antimeson mixing: C55, C112, C113, C114 *)
From Coq Require Import Reals Lra.
From Coquelicot Require Import Coquelicot.
From Verif Require Import Base BaseLemmas Basics_Model Basics_Spec Basics_Proofs Mixing_Model Mixing_Spec Mixing_Proofs Mixing_Proofs2 Mixing_Proofs3 Mixing_Proofs4.
Local Open Scope R_scope.

(** ** C55 *)
(** p |M> + q |anti-M> and p |M> - q |anti-M>, with the ratio q/p that the function returns, are the eigenstates; the mass
    difference is that of the second minus the first, the width difference that of the first minus the second *)
Theorem C55_eigenstates : forall M G : C, h12 M G <> RtoC 0 -> exists energy1 energy2 : C,
  (forall p q : C, p <> RtoC 0 -> (q / p)%C = q_over_p M G -> eigenstate M G p q energy1 /\ eigenstate M G p (- q)%C energy2) /\
  DeltaM M G = mass energy2 - mass energy1 /\
  DeltaGamma M G = width energy1 - width energy2.
Proof.
  intros M G H. exists (zmix M G), (- zmix M G)%C. refine (conj _ (conj _ _)).
  - intros p q Hp Hq. assert (E : q = (q_over_p M G * p)%C) by (rewrite <- Hq; field; exact Hp).
    pose proof (qp_sq M G H) as Q. unfold zmix. rewrite E. split; (split; [| split; [| now left]]); try ring; rewrite <- Q; ring.
  - rewrite DeltaM_z. unfold mass, Copp. cbn [fst]. ring.
  - rewrite DeltaGamma_z. unfold width, Copp. cbn [snd]. ring.
Qed.
(** the two differences in terms of the amplitudes, and the relations between the parameters of the D system *)
Theorem C55_differences : forall M G : C, h12 M G <> RtoC 0 ->
  DeltaM M G ^ 2 - DeltaGamma M G ^ 2 / 4 = 4 * Cmod M ^ 2 - Cmod G ^ 2 /\
  DeltaM M G * DeltaGamma M G = - 4 * fst (M * Cconj G)%C /\
  DeltaM_positive (M, G) = Rabs (DeltaM M G) /\ DeltaM_12 (M, G) = - DeltaM M G /\ DeltaGamma_12 (M, G) = DeltaGamma M G /\
  (DeltaM M G > 0 -> DeltaGamma_B (M, G) = DeltaGamma M G) /\ (DeltaM M G < 0 -> DeltaGamma_B (M, G) = - DeltaGamma M G).
Proof.
  intros M G H. destruct (mix_relations M G H) as [E1 E2].
  refine (conj E1 (conj _ (conj eq_refl (conj eq_refl (conj eq_refl (conj _ _)))))).
  - rewrite E2. unfold Cmult, Cconj. cbn [fst snd]. ring.
  - intros L. unfold DeltaGamma_B. cbn [fst snd]. destruct (Rgt_dec _ 0); [reflexivity | lra].
  - intros L. unfold DeltaGamma_B. cbn [fst snd]. destruct (Rgt_dec _ 0); [lra | reflexivity].
Qed.
Theorem C55_D_system : forall (M G : C) tau, h12 M G <> RtoC 0 -> h21 M G <> RtoC 0 -> M <> RtoC 0 -> G <> RtoC 0 ->
  let a := (M, G) in let r := Cmod (q_over_p M G) in
  x a tau ^ 2 - y a tau ^ 2 = x12 a tau ^ 2 - y12 a tau ^ 2 /\
  x a tau * y a tau = x12 a tau * y12 a tau * cos (phi12 a) /\
  (x a tau ^ 2 + y a tau ^ 2) * (r ^ 2 + / r ^ 2) / 2 = x12 a tau ^ 2 + y12 a tau ^ 2 /\
  (x a tau ^ 2 + y a tau ^ 2) * (r ^ 2 - / r ^ 2) / 4 = x12 a tau * y12 a tau * sin (phi12 a).
Proof.
  intros M G tau H H' HM HG a r.
  destruct (mix_relations M G H) as [E1 E2].
  pose proof (proj1 (Cmod_gt_0 _) HM) as PM. pose proof (proj1 (Cmod_gt_0 _) HG) as PG.
  assert (Hz : (M / G)%C <> RtoC 0).
  { intros E. apply HM. replace M with ((M / G) * G)%C by (field; exact HG). rewrite E. ring. }
  destruct (phase_angle _ Hz) as [_ [Hc Hs]]. rewrite Cmod_div in Hc, Hs by exact HG.
  assert (Hc' : Cmod M * Cmod G * cos (phase (M / G)%C) = fst M * fst G + snd M * snd G).
  { apply (f_equal (Rmult (Cmod G ^ 2))) in Hc. assert (SG : fst G ^ 2 + snd G ^ 2 <> 0) by (rewrite <- cmod_sq; apply pow_nonzero; lra).
    transitivity (Cmod G ^ 2 * (Cmod M / Cmod G * cos (phase (M / G)%C))); [field; lra |]. rewrite <- Hc, cmod_sq.
    destruct M as [m1 m2], G as [g1 g2]. unfold Cdiv, Cinv, Cmult. cbn [fst snd] in *. field. exact SG. }
  assert (Hs' : Cmod M * Cmod G * sin (phase (M / G)%C) = snd M * fst G - fst M * snd G).
  { apply (f_equal (Rmult (Cmod G ^ 2))) in Hs. assert (SG : fst G ^ 2 + snd G ^ 2 <> 0) by (rewrite <- cmod_sq; apply pow_nonzero; lra).
    transitivity (Cmod G ^ 2 * (Cmod M / Cmod G * sin (phase (M / G)%C))); [field; lra |]. rewrite <- Hs, cmod_sq.
    destruct M as [m1 m2], G as [g1 g2]. unfold Cdiv, Cinv, Cmult. cbn [fst snd] in *. field. exact SG. }
  assert (Ez : DeltaM M G ^ 2 + DeltaGamma M G ^ 2 / 4 = 4 * (r ^ 2 * Cmod (h12 M G) ^ 2)).
  { rewrite DeltaM_z, DeltaGamma_z. unfold r. replace (Cmod (q_over_p M G) ^ 2 * Cmod (h12 M G) ^ 2) with (Cmod (zmix M G) ^ 2) by (unfold zmix; rewrite Cmod_mult; ring).
    rewrite cmod_sq. field. }
  pose proof (qp_mod4 M G H) as E4. fold r in E4. pose proof (h12_mod M G) as H1. pose proof (h21_mod M G) as H2.
  assert (Pr : 0 < r) by (apply Cmod_gt_0, h12_ne_h21; assumption).
  unfold x, y, x12, y12, phi12, DeltaM_12, DeltaGamma_12, a. cbn [fst snd]. refine (conj _ (conj _ (conj _ _))).
  - replace ((- DeltaM M G * tau) ^ 2 - (DeltaGamma M G * tau / 2) ^ 2) with (tau ^ 2 * (DeltaM M G ^ 2 - DeltaGamma M G ^ 2 / 4)) by field. rewrite E1. ring.
  - replace (- DeltaM M G * tau * (DeltaGamma M G * tau / 2)) with (- tau ^ 2 / 2 * (DeltaM M G * DeltaGamma M G)) by field. rewrite E2.
    replace (2 * Cmod M * tau * (Cmod G * tau) * cos (phase (M / G)%C)) with (2 * tau ^ 2 * (Cmod M * Cmod G * cos (phase (M / G)%C))) by ring. rewrite Hc'. field.
  - replace ((- DeltaM M G * tau) ^ 2 + (DeltaGamma M G * tau / 2) ^ 2) with (tau ^ 2 * (DeltaM M G ^ 2 + DeltaGamma M G ^ 2 / 4)) by field. rewrite Ez.
    transitivity (2 * tau ^ 2 * (r ^ 4 * Cmod (h12 M G) ^ 2 + Cmod (h12 M G) ^ 2)); [field; lra |]. rewrite E4, H1, H2. field.
  - replace ((- DeltaM M G * tau) ^ 2 + (DeltaGamma M G * tau / 2) ^ 2) with (tau ^ 2 * (DeltaM M G ^ 2 + DeltaGamma M G ^ 2 / 4)) by field. rewrite Ez.
    transitivity (tau ^ 2 * (r ^ 4 * Cmod (h12 M G) ^ 2 - Cmod (h12 M G) ^ 2)); [field; lra |]. rewrite E4, H1, H2.
    replace (2 * Cmod M * tau * (Cmod G * tau) * sin (phase (M / G)%C)) with (2 * tau ^ 2 * (Cmod M * Cmod G * sin (phase (M / G)%C))) by ring. rewrite Hs'. ring.
Qed.
(** the flavour-specific asymmetry is Im(Gamma12/M12): the asymmetry of the mixing probabilities up to terms of second order *)
Theorem C55_asymmetry : forall M G : C, M <> RtoC 0 -> G <> RtoC 0 ->
  a_fs M G = snd (G / M)%C /\
  Rabs (a_fs M G) <= Cmod G / Cmod M /\
  (h12 M G <> RtoC 0 -> h21 M G <> RtoC 0 ->
   wrong_flavour_asymmetry (q_over_p M G) = a_fs M G / (1 + (Cmod G / (2 * Cmod M)) ^ 2)).
Proof.
  intros M G HM HG. refine (conj (a_fs_im M G HM HG) (conj _ (fun H H' => asymmetry M G H H' HM HG))).
  rewrite (a_fs_im M G HM HG), <- (Cmod_div G M HM). apply Rle_trans with (2 := Rmax_Cmod _). apply Rmax_r.
Qed.
(** nothing observable depends on the phase convention of the meson states, or on those of the quark fields *)
Theorem C55_rephasing : forall (e M G : C), Cmod e = 1 -> h12 M G <> RtoC 0 ->
  let a := (M, G) in let a' := ((e * M)%C, (e * G)%C) in
  DeltaM_positive a' = DeltaM_positive a /\
  (DeltaM M G <> 0 -> DeltaGamma_B a' = DeltaGamma_B a) /\
  Cmod (q_over_p (fst a') (snd a')) = Cmod (q_over_p M G) /\
  (M <> RtoC 0 -> G <> RtoC 0 -> a_fs (fst a') (snd a') = a_fs M G) /\
  (G <> RtoC 0 -> phi12 a' = phi12 a) /\
  (forall tau, x a' tau * y a' tau = x a tau * y a tau /\ x12 a' tau = x12 a tau /\ y12 a' tau = y12 a tau).
Proof.
  intros e M G He H a a'. destruct (square_obs _ _ _ _ (square_phase e M G He H)) as [O1 [O2 O3]].
  pose proof (unit_ne e He) as Ne. subst a a'. cbn [fst snd].
  refine (conj O1 (conj O3 (conj _ (conj _ (conj _ _))))).
  - pose proof (qp_mod4 M G H) as E1. pose proof (qp_mod4 _ _ (phase_ne e M G He H)) as E2.
    rewrite h12_phase, h21_phase, !Cmod_mult, Cmod_conj, He, !Rmult_1_l in E2.
    pose proof (proj1 (Cmod_gt_0 _) H) as P. pose proof (Cmod_ge_0 (q_over_p M G)) as Q1. pose proof (Cmod_ge_0 (q_over_p (e * M)%C (e * G)%C)) as Q2.
    set (r := Cmod (q_over_p M G)) in *. set (s := Cmod (q_over_p (e * M)%C (e * G)%C)) in *.
    assert (E : s ^ 4 = r ^ 4). { apply Rmult_eq_reg_r with (Cmod (h12 M G) ^ 2); [lra |]. apply pow_nonzero. lra. }
    assert (E' : s ^ 2 = r ^ 2). { apply Rsqr_inj; try apply pow2_ge_0. unfold Rsqr. lra. }
    apply Rsqr_inj; try assumption. unfold Rsqr. lra.
  - intros HM HG. rewrite !a_fs_im; try assumption; try (apply Cmult_neq_0; assumption). f_equal. field. tauto.
  - intros HG. unfold phi12. cbn [fst snd]. f_equal. field. tauto.
  - intros tau. refine (conj _ (conj _ _)).
    + unfold x, y, DeltaM_12, DeltaGamma_12. cbn [fst snd].
      transitivity (- (DeltaM (e * M)%C (e * G)%C * DeltaGamma (e * M)%C (e * G)%C) * tau ^ 2 / 2); [field |]. rewrite O2. field.
    + unfold x12. cbn [fst]. now rewrite Cmod_mult, He, Rmult_1_l.
    + unfold y12. cbn [snd]. now rewrite Cmod_mult, He, Rmult_1_l.
Qed.
Theorem C55_quark_phases : forall get_mt_mt get_mq get_alpha_s scale K_mixing (a b : nat -> C) (V : nat -> nat -> C) par m,
  (forall k, Cmod (a k) = 1) -> (forall i, Cmod (b i) = 1) ->
  let V' := fun k i => (a k * Cconj (b i) * V k i)%C in
  let amp := get_M12_G12 get_mt_mt get_mq get_alpha_s scale K_mixing in
  (exists e, Cmod e = 1 /\ amp V' par [] m = ((e * fst (amp V par [] m))%C, (e * snd (amp V par [] m))%C)) /\
  (h12 (fst (amp V par [] m)) (snd (amp V par [] m)) <> RtoC 0 -> DeltaM (fst (amp V par [] m)) (snd (amp V par [] m)) <> 0 ->
   (m = B0 -> S_BJpsiK (amp V' par [] m) V' (conjugate V') = S_BJpsiK (amp V par [] m) V (conjugate V)) /\
   (m = Bs -> S_Bspsiphi (amp V' par [] m) V' (conjugate V') = S_Bspsiphi (amp V par [] m) V (conjugate V))).
Proof.
  intros get_mt_mt get_mq get_alpha_s scale K_mixing a b V par m Ha Hb V' amp.
  pose proof (amp_re get_mt_mt get_mq get_alpha_s scale K_mixing a b Ha Hb V par m) as E. fold amp in E. change (rephased a b V) with V' in E.
  pose proof (phase_unit a b Ha Hb m) as Hp. split.
  - exists (phase_of a b m * phase_of a b m)%C. split; [rewrite Cmod_mult, Hp; ring | exact E].
  - intros H HD. split; intros ->; rewrite E.
    + unfold S_BJpsiK. rewrite !xi_conj. pose proof (xi_re a b Ha V B0 "c"%string ltac:(congruence) ltac:(cbn; tauto)) as X. cbn [meson_quark] in X.
      change (rephased a b V) with V' in X. rewrite X. rewrite S_re by assumption. now rewrite <- surjective_pairing.
    + unfold S_Bspsiphi. rewrite !xi_conj. pose proof (xi_re a b Ha V Bs "c"%string ltac:(congruence) ltac:(cbn; tauto)) as X. cbn [meson_quark] in X.
      change (rephased a b V) with V' in X. rewrite X. rewrite S_re by assumption. now rewrite <- surjective_pairing.
Qed.
(** under CP conjugation mass and width differences are unchanged, the asymmetries change sign *)
Theorem C55_conjugation : forall M G : C, h12 M G <> RtoC 0 -> h21 M G <> RtoC 0 -> M <> RtoC 0 -> G <> RtoC 0 -> DeltaM M G <> 0 ->
  let a := (M, G) in let a' := (Cconj M, Cconj G) in
  DeltaM_positive a' = DeltaM_positive a /\ DeltaGamma_B a' = DeltaGamma_B a /\
  a_fs (Cconj M) (Cconj G) = - a_fs M G /\
  Cmod (q_over_p (Cconj M) (Cconj G)) = / Cmod (q_over_p M G) /\
  (forall A eta, A <> RtoC 0 -> eta = 1 \/ eta = -1 -> S_cp a' (Cconj A) A eta = - S_cp a A (Cconj A) eta) /\
  (snd (M / G)%C <> 0 \/ 0 < fst (M / G)%C -> phi12 a' = - phi12 a) /\
  (forall keps DMK, epsK a' keps DMK = - epsK a keps DMK).
Proof.
  intros M G H H' HM HG HD a a'. destruct (square_obs _ _ _ _ (square_conj M G H H')) as [O1 [O2 O3]].
  refine (conj O1 (conj (O3 HD) (conj (a_fs_conj M G HM HG) (conj _ (conj _ (conj _ _)))))).
  - pose proof (qp_mod_conj M G H H') as E. pose proof (proj1 (Cmod_gt_0 _) (h12_ne_h21 M G H H')) as P.
    apply Rmult_eq_reg_r with (Cmod (q_over_p M G)); [| lra]. rewrite E. field. lra.
  - intros A eta HA He. exact (S_conj M G A eta H H' HD HA He).
  - intros Hd. unfold phi12, a', a. cbn [fst snd]. rewrite <- Cconj_div. apply phase_conj; [| exact Hd].
    intros E. apply HM. replace M with ((M / G) * G)%C by (field; exact HG). rewrite E. ring.
  - intros keps DMK. unfold epsK, a', a, Cconj. cbn [fst snd]. unfold Rdiv. ring.
Qed.
Theorem C55_bounds : forall a A A_bar eta, -1 <= S_cp a A A_bar eta <= 1 /\ 0 <= DeltaM_positive a.
Proof. intros a A A_bar eta. split; [apply S_bound | apply Rabs_pos]. Qed.

(** ** C55: the CP asymmetries in the Standard Model are the angles of the unitarity triangle *)
Lemma S_sm (t c : C) (r eta : R) : 0 < r -> t <> RtoC 0 -> c <> RtoC 0 -> (eta = 1 \/ eta = -1) ->
  S_cp ((RtoC r * (t * t))%C, RtoC 0) c (Cconj c) eta = eta * snd (c / t * (c / t))%C / Cmod (c / t)%C ^ 2.
Proof.
  intros Hr Ht Hc He. rewrite S_qpos. set (M := (RtoC r * (t * t))%C).
  assert (R0 : RtoC r <> RtoC 0) by (intros E; injection E; lra).
  assert (HM : M <> RtoC 0) by (unfold M; repeat apply Cmult_neq_0; assumption).
  assert (Hh : h12 M (RtoC 0) = M) by (unfold h12; field; exact two_ne). assert (Hh' : h21 M (RtoC 0) = Cconj M) by (unfold h21; rewrite Cconj_R; field; exact two_ne).
  assert (N : h12 M (RtoC 0) <> RtoC 0) by now rewrite Hh.
  (* q/p times M is minus the modulus *)
  assert (Z : (qpos M (RtoC 0) * M)%C = RtoC (- Cmod M)).
  { pose proof (qpos_sq M (RtoC 0) N) as Sq. rewrite Hh, Hh' in Sq. set (w := (qpos M (RtoC 0) * M)%C).
    assert (W : (w * w)%C = RtoC (Cmod M ^ 2)). { unfold w. transitivity ((qpos M (RtoC 0) * qpos M (RtoC 0) * M) * M)%C; [ring |]. rewrite Sq, cmod_sq. destruct M as [a b]. unfold Cconj, Cmult, RtoC. cbn [fst snd]. f_equal; ring. }
    assert (D : fst w <= 0).
    { unfold w, qpos. pose proof (DeltaM_z M (RtoC 0)) as E. unfold zmix in E. rewrite Hh in E. destruct (Rlt_dec _ _) as [L | L]; [| lra].
      replace (- q_over_p M (RtoC 0) * M)%C with (- (q_over_p M (RtoC 0) * M))%C by ring. unfold Copp. cbn [fst]. lra. }
    pose proof (proj1 (Cmod_gt_0 M) HM) as P. destruct w as [a b]. unfold Cmult, RtoC in W |- *. cbn [fst snd] in *. injection W as W1 W2.
    set (m := Cmod M) in *.
    assert (b0 : b = 0). { destruct (Rmult_integral a b ltac:(lra)) as [-> | E]; [| exact E]. exfalso. pose proof (pow2_ge_0 b). pose proof (pow_lt m 2 P). lra. }
    rewrite b0 in *. assert (E : (a - m) * (a + m) = 0) by lra. destruct (Rmult_integral _ _ E); [lra |]. f_equal. lra. }
  assert (HmM : Cmod M = r * Cmod t ^ 2) by (unfold M; rewrite !Cmod_mult, Cmod_R, Rabs_pos_eq by lra; ring).
  pose proof (proj1 (Cmod_gt_0 t) Ht) as Pt. pose proof (proj1 (Cmod_gt_0 c) Hc) as Pc.
  assert (Rt : RtoC (Cmod t) <> RtoC 0) by (intros E; injection E; lra). assert (Rc : RtoC (Cmod c) <> RtoC 0) by (intros E; injection E; lra).
  assert (Q : qpos M (RtoC 0) = (- (RtoC (Cmod t) * RtoC (Cmod t)) / (t * t))%C).
  { rewrite HmM in Z. replace (RtoC (- (r * Cmod t ^ 2))) with (- (RtoC r * (RtoC (Cmod t) * RtoC (Cmod t))))%C in Z by (rewrite RtoC_opp, RtoC_mult, <- RtoC_mult; do 3 f_equal; ring).
    transitivity (qpos M (RtoC 0) * M / M)%C; [field; exact HM |]. rewrite Z. unfold M. field. split; assumption. }
  assert (Cc : (Cconj c * c)%C = (RtoC (Cmod c) * RtoC (Cmod c))%C). { rewrite <- RtoC_mult. replace (Cmod c * Cmod c) with (Cmod c ^ 2) by ring. rewrite cmod_sq. destruct c as [a b]. unfold Cconj, Cmult, RtoC. cbn [fst snd]. f_equal; ring. }
  assert (Hcc : Cconj c <> RtoC 0). { intros E. apply Hc. rewrite <- (Cconj_conj c), E. unfold Cconj, RtoC. cbn [fst snd]. f_equal. ring. }
  set (u := Cmod (c / t)%C). assert (Hu : u = Cmod c / Cmod t) by (unfold u; now rewrite Cmod_div).
  assert (Pu : 0 < u) by (rewrite Hu; now apply Rdiv_lt_0_compat).
  assert (X : (RtoC eta * qpos M (RtoC 0) * c / Cconj c)%C = (RtoC (- eta / u ^ 2) * (c / t * (c / t)))%C).
  { replace (RtoC (- eta / u ^ 2)) with (- RtoC eta * (RtoC (Cmod t) * RtoC (Cmod t)) / (RtoC (Cmod c) * RtoC (Cmod c)))%C.
    2: { rewrite <- !RtoC_mult, <- RtoC_opp, <- RtoC_mult. unfold Cdiv. rewrite <- RtoC_inv, <- RtoC_mult by (apply Rgt_not_eq; now apply Rmult_lt_0_compat). f_equal. rewrite Hu. field. lra. }
    rewrite Q. rewrite <- Cc. field. repeat split; assumption. }
  rewrite X. assert (Me : Rabs eta = 1) by (destruct He as [-> | ->]; [apply Rabs_R1 | unfold Rabs; destruct (Rcase_abs _); lra]).
  assert (Mx : Cmod (RtoC (- eta / u ^ 2) * (c / t * (c / t)))%C = 1).
  { rewrite !Cmod_mult, Cmod_R. fold u. unfold Rdiv. rewrite Rabs_mult, Rabs_Ropp, Me, Rabs_pos_eq by (left; apply Rinv_0_lt_compat, pow_lt, Pu). field. lra. }
  rewrite Mx. set (w := (c / t * (c / t))%C). unfold Cmult, RtoC. cbn [fst snd]. field. lra.
Qed.
Lemma Cconj_conj_ (z : C) : Cconj (Cconj z) = z.
Proof. destruct z. unfold Cconj. cbn [fst snd]. f_equal. ring. Qed.
(** beta = arg(- V_cd V_cb* / (V_td V_tb-star)) and beta_s = arg(- V_ts V_tb-star / (V_cs V_cb-star)) *)
Theorem C55_unitarity_triangle : forall (V : nat -> nat -> C) (r : R), 0 < r ->
  (forall i j, V i j <> RtoC 0) ->
  let V' := fun i j => Cconj (V i j) in
  let beta := phase (- (V 1%nat 0%nat * V' 1%nat 2%nat) / (V 2%nat 0%nat * V' 2%nat 2%nat))%C in
  let betas := phase (- (V 2%nat 1%nat * V' 2%nat 2%nat) / (V 1%nat 1%nat * V' 1%nat 2%nat))%C in
  let M (j : nat) := (RtoC r * ((V 2%nat 2%nat * V' 2%nat j) * (V 2%nat 2%nat * V' 2%nat j)))%C in
  S_BJpsiK (M 0%nat, RtoC 0) V V' = sin (2 * beta) /\ S_Bspsiphi (M 1%nat, RtoC 0) V V' = sin (2 * betas).
Proof.
  intros V r Hr Hn V' beta betas M.
  assert (Hn' : forall i j, V' i j <> RtoC 0). { intros i j E. apply (Hn i j). rewrite <- (Cconj_conj_ (V i j)). unfold V' in E. rewrite E. unfold Cconj, RtoC. cbn [fst snd]. f_equal. ring. }
  assert (CC : forall i j, Cconj (V' i j) = V i j) by (intros; apply Cconj_conj_).
  assert (A : forall (z : C) (p : R), is_angle z p -> z <> RtoC 0 -> snd (z * z)%C / Cmod z ^ 2 = sin (2 * p)).
  { intros z p (_ & C1 & C2) Hz. pose proof (proj1 (Cmod_gt_0 z) Hz) as P. rewrite sin_2a. destruct z as [a b]. unfold Cmult. cbn [fst snd] in *. set (m := Cmod (a, b)) in *. rewrite C1, C2. field. lra. }
  assert (D : forall a b : C, a <> RtoC 0 -> b <> RtoC 0 -> (- a / b)%C <> RtoC 0).
  { intros a b Ha Hb E. apply Ha. replace a with (- (- a / b) * b)%C by (field; exact Hb). rewrite E. ring. }
  assert (Mo : forall a b : C, b <> RtoC 0 -> Cmod (Cconj a / Cconj b)%C = Cmod (- a / b)%C) by (intros a b Hb; rewrite <- Cconj_div, Cmod_conj; replace (- a / b)%C with (- (a / b))%C by (unfold Cdiv; ring); now rewrite Cmod_opp).
  split.
  - unfold S_BJpsiK. rewrite !(xi_up_val _ "c" 1 "b" 2 "d" 0)%string%nat by (cbn; tauto).
    replace (V' 1%nat 2%nat * Cconj (V' 1%nat 0%nat))%C with (Cconj (V 1%nat 2%nat * Cconj (V 1%nat 0%nat))%C) by (rewrite Cconj_mult; reflexivity). unfold M.
    rewrite S_sm; [| exact Hr | apply Cmult_neq_0; auto | apply Cmult_neq_0; [auto | apply Hn'] | right; reflexivity].
    set (a := (V 1%nat 0%nat * V' 1%nat 2%nat)%C) in *. set (b := (V 2%nat 0%nat * V' 2%nat 2%nat)%C) in *.
    assert (Ea : (V 1%nat 2%nat * Cconj (V 1%nat 0%nat))%C = Cconj a) by (unfold a; rewrite Cconj_mult, CC; ring).
    assert (Eb : (V 2%nat 2%nat * V' 2%nat 0%nat)%C = Cconj b) by (unfold b, V'; rewrite Cconj_mult, Cconj_conj_; ring).
    assert (Na : a <> RtoC 0) by (unfold a; apply Cmult_neq_0; auto). assert (Nb : b <> RtoC 0) by (unfold b; apply Cmult_neq_0; auto).
    rewrite Ea, Eb, Mo by exact Nb. unfold beta. rewrite <- (A _ _ (phase_angle _ (D _ _ Na Nb)) (D _ _ Na Nb)).
    replace (Cconj a / Cconj b * (Cconj a / Cconj b))%C with (Cconj ((- a / b) * (- a / b))%C) by (rewrite Cconj_mult, Cconj_div, Cconj_opp; unfold Cdiv; ring).
    set (w := (- a / b * (- a / b))%C). unfold Cconj. cbn [snd]. unfold Rdiv. ring.
  - unfold S_Bspsiphi. rewrite !(xi_up_val _ "c" 1 "b" 2 "s" 1)%string%nat by (cbn; tauto).
    replace (V' 1%nat 2%nat * Cconj (V' 1%nat 1%nat))%C with (Cconj (V 1%nat 2%nat * Cconj (V 1%nat 1%nat))%C) by (rewrite Cconj_mult; reflexivity). unfold M.
    rewrite S_sm; [| exact Hr | apply Cmult_neq_0; auto | apply Cmult_neq_0; [auto | apply Hn'] | left; reflexivity].
    set (a := (V 2%nat 1%nat * V' 2%nat 2%nat)%C) in *. set (b := (V 1%nat 1%nat * V' 1%nat 2%nat)%C) in *.
    assert (Eb : (V 1%nat 2%nat * Cconj (V 1%nat 1%nat))%C = Cconj b) by (unfold b; rewrite Cconj_mult, CC; ring).
    assert (Ea : (V 2%nat 2%nat * V' 2%nat 1%nat)%C = Cconj a) by (unfold a, V'; rewrite Cconj_mult, Cconj_conj_; ring).
    assert (Na : a <> RtoC 0) by (unfold a; apply Cmult_neq_0; auto). assert (Nb : b <> RtoC 0) by (unfold b; apply Cmult_neq_0; auto).
    assert (Nca : Cconj a <> RtoC 0) by (rewrite <- Ea; apply Cmult_neq_0; auto). assert (Ncb : Cconj b <> RtoC 0) by (rewrite <- Eb; apply Cmult_neq_0; [auto | apply Hn']).
    rewrite Ea, Eb. unfold betas. rewrite <- (A _ _ (phase_angle _ (D _ _ Na Nb)) (D _ _ Na Nb)).
    assert (Q : forall x y : C, x <> RtoC 0 -> y <> RtoC 0 -> snd (Cconj x / Cconj y * (Cconj x / Cconj y))%C / Cmod (Cconj x / Cconj y)%C ^ 2 = snd (- y / x * (- y / x))%C / Cmod (- y / x)%C ^ 2).
    { intros x y Hx Hy. set (z := (- y / x)%C). assert (Hz : z <> RtoC 0) by (unfold z; now apply D). pose proof (proj1 (Cmod_gt_0 z) Hz) as P.
      assert (E : (Cconj x / Cconj y)%C = (- (/ Cconj z))%C). { unfold z. rewrite <- Cconj_div, <- Cconj_inv, <- Cconj_opp. f_equal. field. repeat split; try assumption. all: intros E; apply Hy; replace y with (- (- y))%C by ring; rewrite E; ring. }
      rewrite E. replace (- / Cconj z * - / Cconj z)%C with ((/ Cconj z) * (/ Cconj z))%C by ring. rewrite Cmod_opp.
      assert (I : (/ Cconj z)%C = (RtoC (/ Cmod z ^ 2) * z)%C).
      { pose proof (cmod_sq z) as m2. assert (m2' : Cmod z ^ 2 <> 0) by (apply pow_nonzero; lra). set (m := Cmod z ^ 2) in *. destruct z as [p q]. unfold Cconj, Cinv, Cmult, RtoC. cbn [fst snd] in *. replace (p ^ 2 + (- q) ^ 2) with m by (rewrite m2; ring). f_equal; field; exact m2'. }
      rewrite I. rewrite Cmod_mult, Cmod_R, Rabs_pos_eq by (left; apply Rinv_0_lt_compat, pow_lt, P). set (m := Cmod z) in *. destruct z as [p q]. unfold Cmult, RtoC. cbn [fst snd]. field. lra. }
    rewrite Rmult_1_l, Q by assumption. reflexivity.
Qed.

(** ** C112 *)
(** the amplitude is that of the Standard Model without further coefficients, and depends linearly on them *)
Theorem C112_linear : forall get_mt_mt get_mq get_alpha_s scale K_mixing V par m (wc wc1 wc2 : od string C) (z : C),
  let amp := fun wc => get_M12_G12 get_mt_mt get_mq get_alpha_s scale K_mixing V par wc m in
  let c := fun (wc : od string C) k => match od_get k wc with Some c => c | None => RtoC 0 end in
  (forall k, c wc k = (z * c wc1 k + c wc2 k)%C) ->
  (fst (amp wc) - fst (amp []))%C = (z * (fst (amp wc1) - fst (amp [])) + (fst (amp wc2) - fst (amp [])))%C /\
  snd (amp wc) = snd (amp []).
Proof.
  intros get_mt_mt get_mq get_alpha_s scale K_mixing V par m wc wc1 wc2 z amp c H. split; [| reflexivity].
  unfold amp. rewrite !M12_split, np_nil.
  rewrite (np_lin get_mq scale par wc wc1 wc2 z m H). ring.
Qed.
(** the strong interactions do not distinguish left from right *)
Theorem C112_chirality : forall get_mt_mt get_mq get_alpha_s scale K_mixing V par m (wc wc' : od string C),
  let q := (match m with B0 => "bdbd" | Bs => "bsbs" | K0 => "sdsd" | D0 => "ucuc" end)%string in
  (forall s s', In (s, s') [("CVLL", "CVRR"); ("CVRR", "CVLL"); ("CSLL", "CSRR"); ("CSRR", "CSLL"); ("CTLL", "CTRR"); ("CTRR", "CTLL");
                            ("CVLR", "CVLR"); ("CSLR", "CSLR")]%string ->
     od_get (s' ++ "_" ++ q)%string wc' = od_get (s ++ "_" ++ q)%string wc) ->
  get_M12_G12 get_mt_mt get_mq get_alpha_s scale K_mixing V par wc' m = get_M12_G12 get_mt_mt get_mq get_alpha_s scale K_mixing V par wc m.
Proof.
  intros get_mt_mt get_mq get_alpha_s scale K_mixing V par m wc wc' q H.
  apply injective_projections; [| reflexivity]. rewrite !M12_split. f_equal. rewrite !np_val.
  assert (Q : (fst (meson_quark m) ++ snd (meson_quark m) ++ fst (meson_quark m) ++ snd (meson_quark m))%string = q) by (destruct m; reflexivity).
  rewrite Q. unfold coeff.
  rewrite (H "CVRR" "CVLL")%string, (H "CVLL" "CVRR")%string, (H "CSRR" "CSLL")%string, (H "CSLL" "CSRR")%string, (H "CTRR" "CTLL")%string,
    (H "CTLL" "CTRR")%string, (H "CVLR" "CVLR")%string, (H "CSLR" "CSLR")%string by (cbn; tauto).
  ring.
Qed.
(** the sign: the Hamiltonian is minus coefficient times operator; the left-handed vector operator has the matrix element m f^2 B / 3,
    the scalar ones the chiral enhancement *)
Theorem C112_matrix_elements : forall get_mt_mt get_mq get_alpha_s scale K_mixing V par (c : C),
  let amp := fun wc m => fst (get_M12_G12 get_mt_mt get_mq get_alpha_s scale K_mixing V par wc m) in
  (amp [("CVLL_bdbd"%string, c)] B0 - amp [] B0)%C =
    (- c * RtoC (par "m_B0"%string * par "f_B0"%string ^ 2 * par "bag_B0_1"%string / 3)%R)%C /\
  (amp [("CSLR_bsbs"%string, c)] Bs - amp [] Bs)%C =
    (- c * RtoC (par "m_Bs"%string * par "f_Bs"%string ^ 2 * par "bag_Bs_4"%string / 4 *
       (par "m_Bs"%string / (get_mq "b"%string par (scale Bs) + get_mq "s"%string par (scale Bs))) ^ 2)%R)%C /\
  (amp [("CSLL_sdsd"%string, c)] K0 - amp [] K0)%C =
    (c * RtoC (5 / 24 * par "m_K0"%string * par "f_K0"%string ^ 2 * par "bag_K0_2"%string *
       (par "m_K0"%string / (get_mq "s"%string par (scale K0) + get_mq "d"%string par (scale K0))) ^ 2)%R)%C /\
  (amp [("CVLR_ucuc"%string, c)] D0 - amp [] D0)%C =
    (c * RtoC (par "m_D0"%string * par "f_D0"%string ^ 2 * par "bag_D0_5"%string / 6 *
       (par "m_D0"%string / (get_mq "u"%string par (scale D0) + get_mq "c"%string par (scale D0))) ^ 2)%R)%C.
Proof.
  intros get_mt_mt get_mq get_alpha_s scale K_mixing V par c amp. unfold amp. rewrite !M12_split, !np_nil.
  refine (conj _ (conj _ (conj _ _))); rewrite np_val; unfold coeff; cbn -[Rpower pow Rdiv Rmult Rplus RtoC Cplus Cmult Copp Cminus sm IZR];
    repeat match goal with |- context [eqb (?a : string) ?b] => let v := eval vm_compute in (eqb a b) in change (eqb a b) with v end; cbv iota beta;
    match goal with |- context [sm ?a1 ?a2 ?a3 ?a4 ?a5 ?a6 ?a7 ?a8] => generalize (sm a1 a2 a3 a4 a5 a6 a7 a8) end; intros s;
    destruct c, s; unfold Cminus, Cplus, Cmult, Copp, RtoC; cbn [fst snd]; apply injective_projections; cbn [fst snd]; unfold Rdiv; ring.
Qed.
(** conjugating the CKM matrix and the coefficients conjugates the amplitudes *)
Theorem C112_conjugation : forall get_mt_mt get_mq get_alpha_s scale K_mixing (V : nat -> nat -> C) par (wc : od string C) m,
  let amp := get_M12_G12 get_mt_mt get_mq get_alpha_s scale K_mixing in
  amp (fun k i => Cconj (V k i)) par (conjugate_wc wc) m = (Cconj (fst (amp V par wc m)), Cconj (snd (amp V par wc m))).
Proof. intros. apply amp_conj. Qed.

(** ** C112: the amplitudes of the Standard Model *)
Theorem C112_standard_model : forall get_mt_mt get_mq get_alpha_s scale K_mixing (V : nat -> nat -> C) par,
  let amp := fun m => get_M12_G12 get_mt_mt get_mq get_alpha_s scale K_mixing V par [] m in
  let xt := get_mt_mt par ^ 2 / par "m_W"%string ^ 2 in let xc := par "m_c"%string ^ 2 / par "m_W"%string ^ 2 in let xu := par "m_u"%string ^ 2 / par "m_W"%string ^ 2 in
  let N := par "GF"%string ^ 2 * par "m_W"%string ^ 2 / (4 * PI ^ 2) in
  let had := fun m : string => par ("m_" ++ m)%string * par ("f_" ++ m)%string ^ 2 * par ("bag_" ++ m ++ "_1")%string / 3 in
  let lam := fun (q i j : nat) => (V q i * Cconj (V q j))%C in
  let as_ := fun m => get_alpha_s par (scale m) in
  let rgiB := fun a => Rpower a (- (6 / 23)) * (1 + a / (4 * PI) * (5165 / 3174)) in
  let rgiK := fun a => Rpower a (- (2 / 9)) * (1 + a / (4 * PI) * (307 / 162)) in
  fst (amp B0) = (RtoC (N * had "B0"%string * par "eta_tt_B0"%string * S0_box xt xt xu * rgiB (as_ B0))%R * (lam 2%nat 2%nat 0%nat * lam 2%nat 2%nat 0%nat))%C /\
  fst (amp Bs) = (RtoC (N * had "Bs"%string * par "eta_tt_Bs"%string * S0_box xt xt xu * rgiB (as_ Bs))%R * (lam 2%nat 2%nat 1%nat * lam 2%nat 2%nat 1%nat))%C /\
  (K_mixing = Ct -> fst (amp K0) = (RtoC (N * had "K0"%string * rgiK (as_ K0))%R *
     (RtoC (par "eta_tt_K0"%string * S0_box xt xt xu)%R * (lam 2%nat 1%nat 0%nat * lam 2%nat 1%nat 0%nat)
      + RtoC (par "eta_ct_K0"%string * S0_box xc xt xu)%R * (RtoC 2 * lam 1%nat 1%nat 0%nat * lam 2%nat 1%nat 0%nat)
      + RtoC (par "eta_cc_K0"%string * S0_box xc xc xu)%R * (lam 1%nat 1%nat 0%nat * lam 1%nat 1%nat 0%nat)))%C) /\
  snd (amp B0) = (fst (amp B0) * (RtoC (par "Gamma12_B0_c"%string) + RtoC (par "Gamma12_B0_a"%string) * (lam 0%nat 2%nat 0%nat / lam 2%nat 2%nat 0%nat)) * RtoC (1 / 10000)%R)%C /\
  snd (amp Bs) = (fst (amp Bs) * (RtoC (par "Gamma12_Bs_c"%string) + RtoC (par "Gamma12_Bs_a"%string) * (lam 0%nat 2%nat 1%nat / lam 2%nat 2%nat 1%nat)) * RtoC (1 / 10000)%R)%C /\
  snd (amp K0) = RtoC 0.
Proof.
  intros get_mt_mt get_mq get_alpha_s scale K_mixing V par amp xt xc xu N had lam as_ rgiB rgiK.
  assert (D : forall m, m <> D0 -> fst (amp m) = M12_d_SM get_mt_mt get_mq get_alpha_s scale K_mixing V par m).
  { intros m Hm. unfold amp. rewrite M12_split, np_nil, Cplus_0_l. unfold sm. destruct m; try reflexivity. now elim Hm. }
  assert (ME : forall m, match od_get "CVLL"%string (matrixelements get_mq scale par m) with Some x => x | None => 0 end
     = par ("m_" ++ meson_name m)%string * par ("f_" ++ meson_name m)%string ^ 2 * (1 / 3) * par ("bag_" ++ meson_name m ++ "_1")%string) by reflexivity.
  assert (P1 : forall (n s h : R) (z : C), (- (RtoC n * (z * RtoC s)) * RtoC h)%C = (RtoC (- n * s * h) * z)%C) by (intros; rewrite !RtoC_mult, RtoC_opp; ring).
  assert (P3 : forall (n s1 s2 s3 e1 e2 e3 h : R) (z1 z2 z3 : C), (- (RtoC n * (RtoC e1 * (z1 * RtoC s1) + RtoC e2 * (z2 * RtoC s2) + RtoC e3 * (z3 * RtoC s3))) * RtoC h)%C
      = (RtoC (- n * h) * (RtoC (e1 * s1) * z1 + RtoC (e2 * s2) * z2 + RtoC (e3 * s3) * z3))%C) by (intros; rewrite !RtoC_mult, RtoC_opp; ring).
  assert (G : forall m, m = B0 \/ m = Bs -> snd (amp m) = (M12_d_SM get_mt_mt get_mq get_alpha_s scale K_mixing V par m * (RtoC (par ("Gamma12_" ++ meson_name m ++ "_c")%string) + RtoC (par ("Gamma12_" ++ meson_name m ++ "_a")%string) * (xi_of V "u" (meson_quark m) / xi_of V "t" (meson_quark m))) * RtoC (1 / 10000))%C)
    by (intros m [-> | ->]; unfold amp, get_M12_G12; cbn [snd]; unfold G12_d_SM; cbv zeta; unfold Cdiv; ring).
  rewrite !D by discriminate. rewrite !G by tauto. cbn [meson_quark].
  rewrite !(xi_up_val V "t" 2 "b" 2 "d" 0)%string%nat by (cbn; tauto). rewrite !(xi_up_val V "t" 2 "b" 2 "s" 1)%string%nat by (cbn; tauto). rewrite !(xi_up_val V "u" 0 "b" 2 "d" 0)%string%nat by (cbn; tauto). rewrite !(xi_up_val V "u" 0 "b" 2 "s" 1)%string%nat by (cbn; tauto).
  refine (conj _ (conj _ (conj _ (conj eq_refl (conj eq_refl eq_refl))))).
  - unfold M12_d_SM. rewrite ME. unfold cvll_d. cbv zeta. cbn [meson_quark]. rewrite (xi_up_val V "t" 2 "b" 2 "d" 0)%string%nat by (cbn; tauto).
    rewrite P1. f_equal. f_equal. unfold bag_msbar2rgi. fold (as_ B0). fold (rgiB (as_ B0)). unfold N, had, xt, xu. cbn [append meson_name]. field. apply PI_neq0.
  - unfold M12_d_SM. rewrite ME. unfold cvll_d. cbv zeta. cbn [meson_quark]. rewrite (xi_up_val V "t" 2 "b" 2 "s" 1)%string%nat by (cbn; tauto).
    rewrite P1. f_equal. f_equal. unfold bag_msbar2rgi. fold (as_ Bs). fold (rgiB (as_ Bs)). unfold N, had, xt, xu. cbn [append meson_name]. field. apply PI_neq0.
  - intros ->. unfold M12_d_SM. rewrite ME. unfold cvll_d. cbv zeta. cbn [meson_quark]. rewrite (xi_up_val V "t" 2 "s" 1 "d" 0)%string%nat, (xi_up_val V "c" 1 "s" 1 "d" 0)%string%nat by (cbn; tauto).
    rewrite P3. f_equal. f_equal. unfold bag_msbar2rgi. fold (as_ K0). fold (rgiK (as_ K0)). unfold N, had. cbn [append meson_name]. field. apply PI_neq0.
Qed.

(** ** C113 *)
Theorem C113_symmetric : forall x y, x <> 1 -> y <> 1 -> F_box x y = F_box y x /\ forall xu, S0_box x y xu = S0_box y x xu.
Proof. intros x y Hx Hy. split; [now apply F_sym | intros xu; now apply S0_sym]. Qed.
(** quarks of equal mass cancel *)
Theorem C113_gim : forall x xu, x <> 1 -> xu <> 1 -> S0_box xu x xu = 0 /\ S0_box x xu xu = 0 /\ S0_box xu xu xu = 0.
Proof. intros x xu Hx Hu. refine (conj (S0_gim_fst x xu Hx Hu) (conj (S0_gim_snd x xu) (S0_gim_snd xu xu))). Qed.
(** the special cases of the code are the limits of the general formula *)
Theorem C113_continuous : forall x y0, 0 <= x -> 0 <= y0 -> x <> 1 -> y0 <> 1 ->
  filterlim (F_box x) (within (Rle 0) (locally y0)) (locally (F_box x y0)) /\
  filterlim (fun y => F_box y x) (within (Rle 0) (locally y0)) (locally (F_box y0 x)).
Proof.
  intros x y0 Hx Hy Hx1 Hy1. pose proof (F_cont x y0 Hx Hy Hx1 Hy1) as H. apply continuity_pt_filterlim in H.
  assert (A : filterlim (F_box x) (within (Rle 0) (locally y0)) (locally (F_box x y0))) by (apply filterlim_filter_le_1 with (2 := H); apply filter_le_within).
  split; [exact A |]. rewrite (F_sym y0 x) by assumption.
  apply filterlim_ext_loc with (2 := A). apply filter_le_within.
  exists (mkposreal (Rabs (y0 - 1)) (Rabs_pos_lt (y0 - 1) ltac:(lra))). intros y Hyy. apply F_sym; [exact Hx1 |]. intros ->.
  unfold ball in Hyy. simpl in Hyy. unfold AbsRing_ball, abs, minus, plus, opp in Hyy. simpl in Hyy.
  replace (1 + - y0) with (- (y0 - 1)) in Hyy by ring. rewrite Rabs_Ropp in Hyy. lra.
Qed.
(** without QCD corrections the two ways of using the unitarity of the CKM matrix give the same kaon mixing amplitude *)
Theorem C113_unitarity : forall get_mt_mt (V : nat -> nat -> C) par, unitary V ->
  (forall k, In k ["tt_K0_ut"; "ut_K0_ut"; "uu_K0_ut"; "tt_K0"; "ct_K0"; "cc_K0"]%string -> par ("eta_" ++ k)%string = 1) ->
  (forall mq, In mq [get_mt_mt par; par "m_c"%string; par "m_u"%string] -> mq ^ 2 / par "m_W"%string ^ 2 <> 1) ->
  cvll_d get_mt_mt Ut V par K0 = cvll_d get_mt_mt Ct V par K0.
Proof. intros get_mt_mt V par HV He Hm. apply kaon_unitarity; try assumption; apply Hm; cbn; tauto. Qed.

(** ** C113: the Inami-Lim function *)
Theorem C113_inami_lim : forall x, 0 < x -> x <> 1 ->
  S0_box x x 0 = (4 * x - 11 * x ^ 2 + x ^ 3) / (4 * (1 - x) ^ 2) - 3 * x ^ 3 * ln x / (2 * (1 - x) ^ 3) /\
  (forall y, 0 < y -> y <> 1 -> x <> y ->
   S0_box x y 0 = x * y * ((1 / 4 - 3 / 2 / (x - 1) - 3 / 4 / (x - 1) ^ 2) * ln x / (x - y) + (1 / 4 - 3 / 2 / (y - 1) - 3 / 4 / (y - 1) ^ 2) * ln y / (y - x) - 3 / 4 / ((1 - x) * (1 - y)))).
Proof.
  intros x Hx H1. assert (F00 : F_box 0 0 = 1) by (unfold F_box; destruct (Req_EM_T 0 0); [reflexivity | lra]).
  assert (F0 : forall z, 0 < z -> F_box z 0 = (1 - z + z * ln z) / (-1 + z) ^ 2) by (intros z Hz; unfold F_box; destruct (Req_EM_T z 0); [lra |]; destruct (Req_EM_T 0 0); [reflexivity | lra]).
  split.
  - unfold S0_box. rewrite F00, F0 by exact Hx. unfold F_box. destruct (Req_EM_T x 0); [lra |]. destruct (Req_EM_T x x); [| lra]. field. lra.
  - intros y Hy H1' Hxy. unfold S0_box. rewrite F00, !F0 by assumption. unfold F_box. destruct (Req_EM_T x 0); [lra |]. destruct (Req_EM_T y 0); [lra |]. destruct (Req_EM_T x y); [lra |].
    assert (N : (1 - x) * (1 - y) <> 0) by (apply Rmult_integral_contrapositive_currified; lra). replace (4 - 4 * x - 4 * y + 4 * x * y) with (4 * ((1 - x) * (1 - y))) by ring. field. repeat split; lra.
Qed.

(** ** C114: three documented statements that fail *)
Lemma qp_real (m : R) : m <> 0 -> q_over_p (RtoC m) (RtoC 0) = RtoC (-1).
Proof.
  intros H. unfold q_over_p. destruct (Ceq_dec _ _) as [_ | _]; [reflexivity |].
  assert (E : ((RtoC 2 * Cconj (RtoC m) - Ci * Cconj (RtoC 0)) / (RtoC 2 * RtoC m - Ci * RtoC 0))%C = RtoC 1).
  { rewrite !Cconj_R. replace (Ci * RtoC 0)%C with (RtoC 0) by ring. field. repeat split; intros E; apply (f_equal fst) in E; unfold Cminus, Cplus, Copp, Cmult, RtoC in E; cbn [fst snd] in E; lra. }
  rewrite E. unfold csqrt. rewrite Cmod_1. cbn [fst snd RtoC]. replace ((1 + 1) / 2) with 1 by field. replace ((1 - 1) / 2) with 0 by field.
  rewrite sqrt_1, sqrt_0. destruct (Rlt_dec 0 0); [lra |]. unfold Copp, RtoC. cbn [fst snd]. f_equal; ring.
Qed.
Lemma DeltaM_real (m : R) : m <> 0 -> DeltaM (RtoC m) (RtoC 0) = 2 * m.
Proof. intros H. unfold DeltaM. rewrite (qp_real m H). replace (Ci / RtoC 2 * RtoC 0)%C with (RtoC 0) by (field; exact two_ne). unfold Cminus, Cplus, Copp, Cmult, RtoC. cbn [fst snd]. ring. Qed.
(** the sign of q/p does not make the mass difference positive *)
Theorem C114_sign_refuted : exists M G : C, h12 M G <> RtoC 0 /\ DeltaM M G < 0.
Proof.
  exists (RtoC (-1)), (RtoC 0). split; [| rewrite DeltaM_real; lra].
  unfold h12. replace (Ci * RtoC 0 / RtoC 2)%C with (RtoC 0) by (field; exact two_ne). intros E. injection E. lra.
Qed.
(** phi12 is the phase of M12/Gamma12, not of -M12/Gamma12 as documented *)
Theorem C114_phi12_refuted : ~ forall M G : C, M <> RtoC 0 -> G <> RtoC 0 -> phi12 (M, G) = phase (- M / G)%C.
Proof.
  intros H. assert (N : RtoC 1 <> RtoC 0) by (intros E; injection E; lra). specialize (H (RtoC 1) (RtoC 1) N N). unfold phi12 in H. cbn [fst snd] in H.
  replace (RtoC 1 / RtoC 1)%C with (RtoC 1) in H by (field; exact N). replace (- RtoC 1 / RtoC 1)%C with (RtoC (-1)) in H
    by (replace (RtoC (-1)) with (- RtoC 1)%C by (unfold Copp, RtoC; cbn; f_equal; ring); field; exact N).
  assert (N' : RtoC (-1) <> RtoC 0) by (intros E; injection E; lra).
  destruct (phase_angle _ N) as [_ [C1 _]]. destruct (phase_angle _ N') as [_ [C2 _]]. rewrite <- H in C2.
  rewrite Cmod_1 in C1. rewrite Cmod_R, (Rabs_left (-1)) in C2 by lra. cbn [fst RtoC] in *. lra.
Qed.
(** x12Im is not the sine of phi12, as documented, but x12 times it *)
Theorem C114_x12Im_refuted : ~ forall M G tau, M <> RtoC 0 -> G <> RtoC 0 -> x12Im (M, G) tau = sin (phi12 (M, G)).
Proof.
  intros H. assert (N : Ci <> RtoC 0) by (intros E; injection E; lra). assert (N1 : RtoC 1 <> RtoC 0) by (intros E; injection E; lra).
  specialize (H Ci (RtoC 1) 1 N N1). unfold x12Im, x12, phi12 in H. cbn [fst snd] in H.
  replace (Ci / RtoC 1)%C with Ci in H by (field; exact N1). destruct (phase_angle _ N) as [_ [_ S1]].
  assert (Cm : Cmod Ci = 1) by (unfold Cmod, Ci; cbn [fst snd]; replace (0 ^ 2 + 1 ^ 2) with 1 by ring; apply sqrt_1).
  rewrite Cm in *. cbn [snd Ci] in S1. lra.
Qed.

Print Assumptions C55_eigenstates.
Print Assumptions C55_quark_phases.
Print Assumptions C55_conjugation.
Print Assumptions C113_continuous.

(** Examples: the hypotheses are met *)
Example C55_ex : let M := RtoC 1 in let G := RtoC (1 / 100) in h12 M G <> RtoC 0 /\ h21 M G <> RtoC 0 /\ M <> RtoC 0 /\ G <> RtoC 0.
Proof.
  cbn zeta. refine (conj _ (conj _ (conj _ _))).
  - unfold h12. intros E. apply (f_equal fst) in E. unfold Cdiv, Cinv, Cminus, Cplus, Copp, Cmult, Ci, RtoC in E. cbn [fst snd] in E. field_simplify in E. lra.
  - unfold h21. intros E. apply (f_equal fst) in E. unfold Cconj, Cdiv, Cinv, Cminus, Cplus, Copp, Cmult, Ci, RtoC in E. cbn [fst snd] in E. field_simplify in E. lra.
  - intros E. injection E. lra.
  - intros E. injection E. lra.
Qed.
Example C55_ex_DM : DeltaM (RtoC 1) (RtoC 0) = 2 /\ h12 (RtoC 1) (RtoC 0) <> RtoC 0.
Proof.
  split; [rewrite DeltaM_real; lra |]. unfold h12. replace (Ci * RtoC 0 / RtoC 2)%C with (RtoC 0) by (field; exact two_ne). intros E. injection E. lra.
Qed.
Example C55_ex_all : exists M G : C, h12 M G <> RtoC 0 /\ h21 M G <> RtoC 0 /\ M <> RtoC 0 /\ G <> RtoC 0 /\ DeltaM M G <> 0.
Proof.
  destruct C55_ex as [H1 [H2 [H3 H4]]]. exists (RtoC 1), (RtoC (1 / 100)). refine (conj H1 (conj H2 (conj H3 (conj H4 _)))).
  intros E. destruct (mix_relations _ _ H1) as [E1 E2]. rewrite E, Rmult_0_l in E2. cbn in E2. lra.
Qed.
Example C112_ex : forall k, let c := fun (wc : od string C) k => match od_get k wc with Some c => c | None => RtoC 0 end in
  c [("CVLL_bdbd"%string, RtoC 5); ("CVRR_bdbd"%string, RtoC 1)] k = (RtoC 5 * c [("CVLL_bdbd"%string, RtoC 1)] k + c [("CVRR_bdbd"%string, RtoC 1)] k)%C.
Proof. intros k. cbn. destruct (eqb k "CVLL_bdbd"%string) eqn:E1, (eqb k "CVRR_bdbd"%string) eqn:E2; try ring. apply eqb_true in E1. apply eqb_true in E2. congruence. Qed.
Example C113_ex : unitary (fun k i => if Nat.eqb k i then RtoC 1 else RtoC 0).
Proof.
  assert (L : forall i, (i < 3)%nat -> i = 0%nat \/ i = 1%nat \/ i = 2%nat) by (intros; lia).
  split; intros i j Hi Hj; destruct (L i Hi) as [-> | [-> | ->]], (L j Hj) as [-> | [-> | ->]]; cbn; unfold delta; cbn; rewrite ?Cconj_R; ring.
Qed.
Print Assumptions C55_unitarity_triangle.
Print Assumptions C112_standard_model.
Print Assumptions C113_inami_lim.
