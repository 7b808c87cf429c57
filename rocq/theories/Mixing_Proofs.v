From Coq Require Import Reals Lra.
From Coquelicot Require Import Complex.
From Verif Require Import Base BaseLemmas Basics_Model Basics_Spec Basics_Proofs Mixing_Model Mixing_Spec.
Local Open Scope R_scope.
Lemma Rabs_def2_le a b : Rabs a <= b -> - b <= a <= b.
Proof. intros H. pose proof (Rle_abs a). pose proof (Rle_abs (- a)) as H2. rewrite Rabs_Ropp in H2. lra. Qed.

Lemma csqrt_sq (z : C) : (csqrt z * csqrt z)%C = z.
Proof.
  pose proof (cmod_sq z) as Hm. pose proof (Cmod_ge_0 z) as H0. pose proof (Rmax_Cmod z) as Hx.
  assert (Ha : Rabs (fst z) <= Cmod z) by (apply Rle_trans with (2 := Hx); apply Rmax_l).
  apply Rabs_def2_le in Ha.
  assert (Hp : sqrt ((Cmod z + fst z) / 2) * sqrt ((Cmod z + fst z) / 2) = (Cmod z + fst z) / 2) by (apply sqrt_sqrt; lra).
  assert (Hq : sqrt ((Cmod z - fst z) / 2) * sqrt ((Cmod z - fst z) / 2) = (Cmod z - fst z) / 2) by (apply sqrt_sqrt; lra).
  assert (Hpq : sqrt ((Cmod z + fst z) / 2) * sqrt ((Cmod z - fst z) / 2) = Rabs (snd z) / 2).
  { rewrite <- sqrt_mult by lra. replace ((Cmod z + fst z) / 2 * ((Cmod z - fst z) / 2)) with ((snd z / 2) * (snd z / 2)) by
      (replace ((Cmod z + fst z) / 2 * ((Cmod z - fst z) / 2)) with ((Cmod z ^ 2 - fst z ^ 2) / 4) by field; rewrite Hm; field).
    change (snd z / 2 * (snd z / 2)) with (Rsqr (snd z / 2)). rewrite sqrt_Rsqr_abs. unfold Rdiv. rewrite Rabs_mult, (Rabs_pos_eq (/ 2)) by lra. reflexivity. }
  unfold csqrt. destruct z as [a b]. cbn [fst snd] in *. unfold Cmult; cbn [fst snd].
  set (p := sqrt ((Cmod (a, b) + a) / 2)) in *. set (q := sqrt ((Cmod (a, b) - a) / 2)) in *.
  destruct (Rlt_dec b 0) as [Hb | Hb].
  - rewrite (Rabs_left b Hb) in Hpq. apply injective_projections; cbn [fst snd]; [replace (p * p - - q * - q) with (p * p - q * q) by ring | replace (p * - q + - q * p) with (- 2 * (p * q)) by ring]; lra.
  - rewrite (Rabs_pos_eq b) in Hpq by lra. apply injective_projections; cbn [fst snd]; [ | replace (p * q + q * p) with (2 * (p * q)) by ring]; lra.
Qed.
Lemma csqrt_re (z : C) : 0 <= fst (csqrt z).
Proof. apply sqrt_pos. Qed.

Lemma two_ne : RtoC 2 <> RtoC 0.
Proof. intros H. injection H. lra. Qed.
Lemma h12_two M G : (RtoC 2 * M - Ci * G)%C = (RtoC 2 * h12 M G)%C.
Proof. unfold h12. field. exact two_ne. Qed.
Lemma h21_two M G : (RtoC 2 * Cconj M - Ci * Cconj G)%C = (RtoC 2 * h21 M G)%C.
Proof. unfold h21. field. exact two_ne. Qed.
Lemma h12_alt M G : (M - Ci / RtoC 2 * G)%C = h12 M G.
Proof. unfold h12. field. exact two_ne. Qed.

Lemma qp_eq M G : h12 M G <> RtoC 0 -> q_over_p M G = (- csqrt (h21 M G / h12 M G))%C.
Proof.
  intros H. unfold q_over_p. destruct (Ceq_dec _ _) as [E | E].
  - exfalso. rewrite h12_two in E. apply (Cmult_neq_0 _ _ two_ne H) in E. exact E.
  - rewrite (h21_two M G), (h12_two M G). do 2 f_equal. field. split; [exact H | exact two_ne].
Qed.
Lemma qp_sq M G : h12 M G <> RtoC 0 -> (q_over_p M G * q_over_p M G * h12 M G)%C = h21 M G.
Proof.
  intros H. rewrite (qp_eq _ _ H).
  transitivity ((csqrt (h21 M G / h12 M G) * csqrt (h21 M G / h12 M G)) * h12 M G)%C; [ring |].
  rewrite csqrt_sq. field. exact H.
Qed.
Definition zmix M G : C := (q_over_p M G * h12 M G)%C.
Lemma DeltaM_z M G : DeltaM M G = - 2 * fst (zmix M G).
Proof. unfold DeltaM, zmix. now rewrite h12_alt. Qed.
Lemma DeltaGamma_z M G : DeltaGamma M G = - 4 * snd (zmix M G).
Proof. unfold DeltaGamma, zmix. now rewrite h12_alt. Qed.
Lemma z_sq M G : h12 M G <> RtoC 0 -> (zmix M G * zmix M G)%C = (h12 M G * h21 M G)%C.
Proof. intros H. unfold zmix. rewrite <- (qp_sq M G H). ring. Qed.

Lemma C_sq_eq (a b : C) : (a * a)%C = (b * b)%C -> a = b \/ a = (- b)%C.
Proof.
  intros H. assert (E : ((a - b) * (a + b))%C = RtoC 0) by (replace ((a - b) * (a + b))%C with (a * a - b * b)%C by ring; rewrite H; ring).
  destruct (Ceq_dec (a - b)%C (RtoC 0)) as [H1 | H1].
  - left. replace a with (a - b + b)%C by ring. rewrite H1. ring.
  - destruct (Ceq_dec (a + b)%C (RtoC 0)) as [H2 | H2]; [right; replace a with (a + b - b)%C by ring; rewrite H2; ring |].
    exfalso. exact (Cmult_neq_0 _ _ H1 H2 E).
Qed.

Lemma h12_ne_h21 M G : h12 M G <> RtoC 0 -> h21 M G <> RtoC 0 -> q_over_p M G <> RtoC 0.
Proof. intros H H' E. apply H'. rewrite <- (qp_sq M G H), E. ring. Qed.

(** products *)
Lemma h_product M G : (h12 M G * h21 M G)%C =
  (fst M ^ 2 + snd M ^ 2 - (fst G ^ 2 + snd G ^ 2) / 4, - (fst M * fst G + snd M * snd G)).
Proof. unfold h12, h21. destruct M as [a b], G as [c d]. unfold Cconj, Cdiv, Cinv, Cminus, Cplus, Copp, Cmult, Ci, RtoC. cbn [fst snd]. apply injective_projections; cbn [fst snd]; field. Qed.
Lemma mix_relations M G : h12 M G <> RtoC 0 ->
  DeltaM M G ^ 2 - DeltaGamma M G ^ 2 / 4 = 4 * Cmod M ^ 2 - Cmod G ^ 2 /\
  DeltaM M G * DeltaGamma M G = - 4 * (fst M * fst G + snd M * snd G).
Proof.
  intros H. pose proof (z_sq M G H) as E. rewrite h_product in E. rewrite DeltaM_z, DeltaGamma_z, !cmod_sq.
  destruct (zmix M G) as [u v]. unfold Cmult in E. cbn [fst snd] in *. injection E as E1 E2.
  split; [| nra]. replace ((-2 * u) ^ 2 - (-4 * v) ^ 2 / 4) with (4 * (u * u - v * v)) by field. rewrite E1. field.
Qed.
Lemma h12_mod M G : Cmod (h12 M G) ^ 2 = Cmod M ^ 2 + Cmod G ^ 2 / 4 + (fst M * snd G - snd M * fst G).
Proof. rewrite !cmod_sq. unfold h12. destruct M as [a b], G as [c d]. unfold Cdiv, Cinv, Cminus, Cplus, Copp, Cmult, Ci, RtoC. cbn [fst snd]. field. Qed.
Lemma h21_mod M G : Cmod (h21 M G) ^ 2 = Cmod M ^ 2 + Cmod G ^ 2 / 4 - (fst M * snd G - snd M * fst G).
Proof. rewrite !cmod_sq. unfold h21. destruct M as [a b], G as [c d]. unfold Cconj, Cdiv, Cinv, Cminus, Cplus, Copp, Cmult, Ci, RtoC. cbn [fst snd]. field. Qed.
Lemma qp_mod4 M G : h12 M G <> RtoC 0 -> Cmod (q_over_p M G) ^ 4 * Cmod (h12 M G) ^ 2 = Cmod (h21 M G) ^ 2.
Proof. intros H. rewrite <- (qp_sq M G H). rewrite !Cmod_mult. ring. Qed.

Lemma a_fs_im M G : M <> RtoC 0 -> G <> RtoC 0 -> a_fs M G = snd (G / M)%C.
Proof.
  intros HM HG. unfold a_fs. assert (Hz : (- M / G)%C <> RtoC 0).
  { intros E. apply HM. replace M with (- ((- M / G) * G))%C by (field; exact HG). rewrite E. ring. }
  destruct (phase_angle _ Hz) as [_ [_ Hs]].
  assert (Hm : Cmod (- M / G)%C = Cmod M / Cmod G) by (rewrite Cmod_div by exact HG; now rewrite Cmod_opp).
  rewrite Hm in Hs. pose proof (proj1 (Cmod_gt_0 M) HM) as PM. pose proof (proj1 (Cmod_gt_0 G) HG) as PG.
  assert (E : sin (phase (- M / G)%C) = snd (- M / G)%C * (Cmod G / Cmod M)) by (rewrite Hs; field; lra).
  rewrite E. replace (Cmod G / Cmod M * (snd (- M / G)%C * (Cmod G / Cmod M))) with (snd (- M / G)%C * (Cmod G ^ 2) / Cmod M ^ 2) by (field; lra).
  assert (SM : fst M ^ 2 + snd M ^ 2 <> 0) by (rewrite <- cmod_sq; apply pow_nonzero; lra).
  assert (SG : fst G ^ 2 + snd G ^ 2 <> 0) by (rewrite <- cmod_sq; apply pow_nonzero; lra).
  rewrite !cmod_sq. destruct M as [a b], G as [c d]. unfold Cdiv, Cinv, Copp, Cmult. cbn [fst snd] in *.
  field. split; assumption.
Qed.
Lemma im_div M G : M <> RtoC 0 -> snd (G / M)%C = (fst M * snd G - snd M * fst G) / Cmod M ^ 2.
Proof.
  intros HM. pose proof (proj1 (Cmod_gt_0 M) HM) as PM.
  assert (SM : fst M ^ 2 + snd M ^ 2 <> 0) by (rewrite <- cmod_sq; apply pow_nonzero; lra).
  rewrite cmod_sq. destruct M as [a b], G as [c d]. unfold Cdiv, Cinv, Cmult. cbn [fst snd] in *. field. exact SM.
Qed.

Lemma asymmetry M G : h12 M G <> RtoC 0 -> h21 M G <> RtoC 0 -> M <> RtoC 0 -> G <> RtoC 0 ->
  wrong_flavour_asymmetry (q_over_p M G) = a_fs M G / (1 + (Cmod G / (2 * Cmod M)) ^ 2).
Proof.
  intros H H' HM HG. rewrite (a_fs_im M G HM HG), (im_div M G HM). unfold wrong_flavour_asymmetry.
  pose proof (qp_mod4 M G H) as E. pose proof (h12_mod M G) as E1. pose proof (h21_mod M G) as E2.
  pose proof (proj1 (Cmod_gt_0 _) (h12_ne_h21 M G H H')) as Pr.
  pose proof (proj1 (Cmod_gt_0 _) H) as P1. pose proof (proj1 (Cmod_gt_0 _) HM) as PM. pose proof (proj1 (Cmod_gt_0 _) HG) as PG.
  set (r := Cmod (q_over_p M G)) in *. set (I := fst M * snd G - snd M * fst G) in *.
  set (m := Cmod M) in *. set (g := Cmod G) in *. set (h := Cmod (h12 M G)) in *.
  assert (P2 : 0 < h ^ 2) by (apply pow_lt; exact P1).
  assert (P4 : 0 < r ^ 4) by (apply pow_lt; exact Pr). assert (P5 : 0 < r ^ 2) by (apply pow_lt; exact Pr).
  assert (Q : 0 < 4 * m ^ 2 + g ^ 2) by (pose proof (pow_lt m 2 PM); pose proof (pow_lt g 2 PG); lra).
  transitivity ((1 - r ^ 4) / (1 + r ^ 4)). { field. repeat split; lra. }
  transitivity ((h ^ 2 - r ^ 4 * h ^ 2) / (h ^ 2 + r ^ 4 * h ^ 2)). { field. repeat split; nra. }
  rewrite E, E1, E2. field. repeat split; lra.
Qed.

(** rephasing *)
Lemma Cmod_conj (z : C) : Cmod (Cconj z) = Cmod z.
Proof. unfold Cmod, Cconj. cbn [fst snd]. f_equal. ring. Qed.
Lemma unit_conj e : Cmod e = 1 -> (e * Cconj e)%C = RtoC 1.
Proof. intros H. pose proof (cmod_sq e) as E. rewrite H in E. destruct e as [a b]. unfold Cmult, Cconj, RtoC. cbn [fst snd] in *. apply injective_projections; cbn [fst snd]; lra. Qed.
Lemma unit_ne e : Cmod e = 1 -> e <> RtoC 0.
Proof. intros H E. rewrite E, Cmod_0 in H. lra. Qed.
Lemma h12_phase e M G : h12 (e * M)%C (e * G)%C = (e * h12 M G)%C.
Proof. unfold h12. field. exact two_ne. Qed.
Lemma h21_phase e M G : h21 (e * M)%C (e * G)%C = (Cconj e * h21 M G)%C.
Proof. unfold h21. rewrite !Cconj_mult. field. exact two_ne. Qed.
Lemma h12_conj M G : h12 (Cconj M) (Cconj G) = h21 M G.
Proof. reflexivity. Qed.
Lemma h21_conj M G : h21 (Cconj M) (Cconj G) = h12 M G.
Proof. unfold h21, h12. now rewrite !Cconj_conj. Qed.
Lemma phase_ne e M G : Cmod e = 1 -> h12 M G <> RtoC 0 -> h12 (e * M)%C (e * G)%C <> RtoC 0.
Proof. intros He H. rewrite h12_phase. apply Cmult_neq_0; [now apply unit_ne | exact H]. Qed.

Definition same_square M G M' G' : Prop := zmix M' G' = zmix M G \/ zmix M' G' = (- zmix M G)%C.
Lemma square_phase e M G : Cmod e = 1 -> h12 M G <> RtoC 0 -> same_square M G (e * M)%C (e * G)%C.
Proof.
  intros He H. apply C_sq_eq. rewrite (z_sq _ _ (phase_ne e M G He H)), (z_sq _ _ H), h12_phase, h21_phase.
  transitivity ((e * Cconj e) * (h12 M G * h21 M G))%C; [ring |]. rewrite (unit_conj e He). ring.
Qed.
Lemma square_conj M G : h12 M G <> RtoC 0 -> h21 M G <> RtoC 0 -> same_square M G (Cconj M) (Cconj G).
Proof.
  intros H H'. apply C_sq_eq. rewrite (z_sq _ _ H). rewrite z_sq by (rewrite h12_conj; exact H').
  rewrite h12_conj, h21_conj. ring.
Qed.
Lemma square_obs M G M' G' : same_square M G M' G' ->
  DeltaM_positive (M', G') = DeltaM_positive (M, G) /\
  DeltaM M' G' * DeltaGamma M' G' = DeltaM M G * DeltaGamma M G /\
  (DeltaM M G <> 0 -> DeltaGamma_B (M', G') = DeltaGamma_B (M, G)).
Proof.
  intros H. unfold DeltaM_positive, DeltaGamma_B. cbn [fst snd]. rewrite !DeltaM_z, !DeltaGamma_z.
  destruct H as [H | H]; rewrite H; [repeat split; reflexivity |].
  destruct (zmix M G) as [u v]. unfold Copp. cbn [fst snd]. refine (conj _ (conj _ _)).
  - replace (-2 * - u) with (- (-2 * u)) by ring. apply Rabs_Ropp.
  - ring.
  - intros Hu. destruct (Rgt_dec (-2 * - u) 0), (Rgt_dec (-2 * u) 0); lra.
Qed.
(** the ratio with the sign that makes the mass difference positive *)
Definition qpos M G : C := if Rlt_dec (DeltaM M G) 0 then (- q_over_p M G)%C else q_over_p M G.
Lemma qpos_z M G : DeltaM M G <> 0 -> fst (qpos M G * h12 M G)%C < 0 /\
  (qpos M G * h12 M G = zmix M G \/ qpos M G * h12 M G = - zmix M G)%C.
Proof.
  intros H. unfold qpos. rewrite DeltaM_z in *.
  destruct (Rlt_dec (-2 * fst (zmix M G)) 0) as [L | L].
  - replace (- q_over_p M G * h12 M G)%C with (- zmix M G)%C by (unfold zmix; ring).
    split; [unfold Copp; cbn [fst]; lra | now right].
  - change (q_over_p M G * h12 M G)%C with (zmix M G). split; [lra | now left].
Qed.
Lemma qpos_same M G M' G' : DeltaM M G <> 0 -> same_square M G M' G' -> (qpos M' G' * h12 M' G')%C = (qpos M G * h12 M G)%C.
Proof.
  intros H HS. assert (H' : DeltaM M' G' <> 0).
  { rewrite DeltaM_z in *. destruct HS as [-> | ->]; [exact H | unfold Copp; cbn [fst]; lra]. }
  destruct (qpos_z M G H) as [L1 E1]. destruct (qpos_z M' G' H') as [L2 E2].
  destruct E1 as [E1 | E1], E2 as [E2 | E2], HS as [E3 | E3]; rewrite E1, E2, E3 in *; try reflexivity; try ring;
    exfalso; destruct (zmix M G) as [u v]; unfold Copp in *; cbn [fst snd] in *; lra.
Qed.
Lemma qpos_sq M G : h12 M G <> RtoC 0 -> (qpos M G * qpos M G * h12 M G)%C = h21 M G.
Proof. intros H. unfold qpos. rewrite <- (qp_sq M G H). destruct (Rlt_dec _ _); [ring | reflexivity]. Qed.
Lemma S_qpos M G A A_bar eta : S_cp (M, G) A A_bar eta =
  - 2 * snd (RtoC eta * qpos M G * A / A_bar)%C / (1 + Cmod (RtoC eta * qpos M G * A / A_bar)%C ^ 2).
Proof. reflexivity. Qed.
Lemma S_bound a A A_bar eta : -1 <= S_cp a A A_bar eta <= 1.
Proof.
  unfold S_cp. set (z := (RtoC eta * _ * A / A_bar)%C). clearbody z.
  pose proof (cmod_sq z) as E. rewrite E. set (u := fst z). set (v := snd z).
  assert (P : 0 < 1 + (u ^ 2 + v ^ 2)) by (pose proof (pow2_ge_0 u); pose proof (pow2_ge_0 v); lra).
  assert (F : (- 2 * v / (1 + (u ^ 2 + v ^ 2))) * (1 + (u ^ 2 + v ^ 2)) = - 2 * v) by (field; lra).
  set (s := - 2 * v / (1 + (u ^ 2 + v ^ 2))) in *. pose proof (pow2_ge_0 u). pose proof (pow2_ge_0 (1 + v)). pose proof (pow2_ge_0 (1 - v)).
  split; apply Rmult_le_reg_r with (1 := P); rewrite F; nra.
Qed.
