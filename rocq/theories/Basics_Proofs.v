From Coq Require Import Reals Lra Psatz.
From Coquelicot Require Import Complex.
From Verif Require Import Base BaseLemmas Basics_Model Basics_Spec.
Local Open Scope R_scope.

Ltac Ceq := repeat match goal with z : C |- _ => destruct z as [? ?] end;
  unfold Cplus, Cmult, Cconj, Copp, Cminus, RtoC; cbn [fst snd]; apply injective_projections; cbn [fst snd]; ring.

Lemma Cconj_mult a b : Cconj (Cmult a b) = Cmult (Cconj a) (Cconj b).
Proof. Ceq. Qed.
Lemma Cconj_plus a b : Cconj (Cplus a b) = Cplus (Cconj a) (Cconj b).
Proof. Ceq. Qed.
Lemma Cconj_conj a : Cconj (Cconj a) = a.
Proof. Ceq. Qed.
Lemma Cconj_ne (a : C) : a <> RtoC 0 -> Cconj a <> RtoC 0.
Proof. intros H E. apply H. destruct a as [x y]. unfold Cconj, RtoC in *. cbn [fst snd] in E. injection E as -> E. f_equal. lra. Qed.

(** *** the phase *)
Lemma cmod_sq (z : C) : Cmod z ^ 2 = fst z ^ 2 + snd z ^ 2.
Proof. unfold Cmod. rewrite pow2_sqrt; [reflexivity|]. nra. Qed.
Lemma phase_angle (z : C) : z <> RtoC 0 -> is_angle z (phase z).
Proof.
  intros Hz. unfold phase. destruct (Ceq_dec z 0); [contradiction|].
  assert (Hm : 0 < Cmod z) by now apply Cmod_gt_0.
  pose proof (cmod_sq z) as Hsq. pose proof PI_RGT_0 as Hpi.
  set (u := fst z / Cmod z).
  assert (Hu : fst z = Cmod z * u) by (unfold u; field; lra).
  assert (Hb : -1 <= u <= 1).
  { assert (u ^ 2 <= 1). { rewrite Hu in Hsq. assert (0 < Cmod z ^ 2) by nra. nra. } nra. }
  assert (Hs : snd z ^ 2 = Cmod z ^ 2 * (1 - u ^ 2)) by (rewrite Hu in Hsq; nra).
  pose proof (acos_bound u) as Hac. 
  assert (Hsin : sin (acos u) = sqrt (1 - u²)) by (apply sin_acos; lra).
  assert (Hcos : cos (acos u) = u) by (apply cos_acos; lra).
  assert (Habs : Rabs (snd z) = Cmod z * sqrt (1 - u²)).
  { rewrite <- sqrt_Rsqr_abs. replace (Rsqr (snd z)) with (Rsqr (Cmod z) * (1 - u²)) by (unfold Rsqr; nra).
    rewrite sqrt_mult; [|apply Rle_0_sqr|unfold Rsqr; nra]. rewrite sqrt_Rsqr by lra. reflexivity. }
  unfold is_angle. destruct (Rlt_dec (snd z) 0) as [Hn|Hn].
  - rewrite Rabs_left in Habs by lra. repeat split.
    + assert (acos u <> PI). { intros E. rewrite E, cos_PI in Hcos. rewrite <- Hcos in Hs. assert (snd z ^ 2 = 0) by nra. nra. } lra.
    + lra.
    + rewrite cos_neg, Hcos. exact Hu.
    + rewrite sin_neg, Hsin. lra.
  - rewrite Rabs_right in Habs by lra. repeat split; try lra.
    + rewrite Hcos. exact Hu.
    + rewrite Hsin. exact Habs.
Qed.
Lemma angle_unique (z : C) t t' : z <> RtoC 0 -> is_angle z t -> is_angle z t' -> t = t'.
Proof.
  intros Hz (B & C1 & S1) (B' & C2 & S2). assert (Hm : 0 < Cmod z) by now apply Cmod_gt_0.
  assert (Ec : cos t = cos t') by (apply Rmult_eq_reg_l with (Cmod z); lra).
  assert (Es : sin t = sin t') by (apply Rmult_eq_reg_l with (Cmod z); lra).
  assert (Hs : sin (t - t') = 0) by (rewrite sin_minus, Ec, Es; ring).
  assert (Hc : cos (t - t') = 1) by (rewrite cos_minus, Ec, Es; pose proof (sin2_cos2 t') as Q; unfold Rsqr in Q; lra).
  assert (H2 : sin ((t - t') / 2) = 0).
  { assert (Q : cos (2 * ((t - t') / 2)) = 1 - 2 * sin ((t - t') / 2) * sin ((t - t') / 2)) by apply cos_2a_sin.
    replace (2 * ((t - t') / 2)) with (t - t') in Q by field. nra. }
  destruct (Rtotal_order t t') as [H|[H|H]]; [exfalso|assumption|exfalso].
  - assert (0 < sin ((t' - t) / 2)) by (apply sin_gt_0; lra).
    replace ((t' - t) / 2) with (- ((t - t') / 2)) in H0 by field. rewrite sin_neg in H0. lra.
  - assert (0 < sin ((t - t') / 2)) by (apply sin_gt_0; lra). lra.
Qed.
Lemma angle_signs (z : C) t : z <> RtoC 0 -> is_angle z t ->
  (0 < snd z -> 0 < t < PI) /\ (snd z < 0 -> - PI < t < 0) /\ (snd z = 0 -> (0 < fst z -> t = 0) /\ (fst z < 0 -> t = PI)).
Proof.
  intros Hz (B & C1 & S1). assert (Hm : 0 < Cmod z) by now apply Cmod_gt_0. pose proof PI_RGT_0.
  split; [|split].
  - intros Hs. assert (0 < sin t) by nra. split.
    + destruct (Rle_dec t 0); [|lra]. assert (sin t <= 0); [|lra]. destruct (Req_dec t 0) as [->|]; [rewrite sin_0; lra|].
      left. rewrite <- (Ropp_involutive t), sin_neg. assert (0 < sin (- t)) by (apply sin_gt_0; lra). lra.
    + destruct (Req_dec t PI) as [->|]; [rewrite sin_PI in *; lra|lra].
  - intros Hs. assert (sin t < 0) by nra. split; [lra|]. destruct (Rle_dec 0 t); [|lra].
    assert (0 <= sin t) by (apply sin_ge_0; lra). lra.
  - intros Hs. assert (Es : sin t = 0) by nra.
    assert (Ht : t = 0 \/ t = PI).
    { destruct (Rtotal_order t 0) as [H0|[H0|H0]]; [exfalso|auto|].
      - assert (0 < sin (- t)) by (apply sin_gt_0; lra). rewrite sin_neg in *. lra.
      - right. destruct (Rtotal_order t PI) as [H1|[H1|H1]]; [exfalso|auto|lra]. assert (0 < sin t) by (apply sin_gt_0; lra). lra. }
    split; intros Hf; destruct Ht as [-> | ->]; auto; rewrite ?cos_0, ?cos_PI in C1; lra.
Qed.

Lemma cos_m1_small s : cos s = -1 -> 0 < s < 3 * PI -> s = PI.
Proof.
  intros Hc Hs. pose proof PI_RGT_0.
  assert (H1 : cos (s - PI) = 1) by (rewrite cos_minus, cos_PI, sin_PI; lra).
  assert (H2 : sin ((s - PI) / 2) = 0).
  { assert (Q : cos (2 * ((s - PI) / 2)) = 1 - 2 * sin ((s - PI) / 2) * sin ((s - PI) / 2)) by apply cos_2a_sin.
    replace (2 * ((s - PI) / 2)) with (s - PI) in Q by field. nra. }
  destruct (Rtotal_order s PI) as [H0|[H0|H0]]; [exfalso|assumption|exfalso].
  - assert (0 < sin ((PI - s) / 2)) by (apply sin_gt_0; lra).
    replace ((PI - s) / 2) with (- ((s - PI) / 2)) in H3 by field. rewrite sin_neg in H3. lra.
  - assert (0 < sin ((s - PI) / 2)) by (apply sin_gt_0; lra). lra.
Qed.

Lemma im_relation x1 y1 x2 y2 : x1 * x2 - y1 * y2 + 1 = x2 -> x1 * y2 + y1 * x2 + 0 = y2 -> y1 * (x2 ^ 2 + y2 ^ 2) = y2.
Proof.
  intros F S. assert (E : x2 * (x1 * y2 + y1 * x2 + 0 - y2) - y2 * (x1 * x2 - y1 * y2 + 1 - x2) = 0) by (rewrite F, S; ring).
  apply Rminus_diag_uniq. rewrite <- E. ring.
Qed.
(** the three angles of a triangle: z1 + 1/z2 = 1, z1 z2 z3 = -1 *)
Lemma triangle_angles (z1 z2 z3 : C) t1 t2 t3 :
  z1 <> RtoC 0 -> z2 <> RtoC 0 -> z3 <> RtoC 0 -> (z1 * z2 * z3 = - (1))%C -> (z1 * z2 + 1 = z2)%C ->
  is_angle z1 t1 -> is_angle z2 t2 -> is_angle z3 t3 ->
  (t1 + t2 + t3 = PI /\ 0 <= t1 /\ 0 <= t2 /\ 0 <= t3) \/ (t1 + t2 + t3 = - PI /\ t1 < 0 /\ t2 < 0 /\ t3 < 0).
Proof.
  intros N1 N2 N3 Hp Hsum A1 A2 A3.
  assert (M : Cmod z1 * Cmod z2 * Cmod z3 = 1).
  { rewrite <- !Cmod_mult, Hp, Cmod_opp. apply Cmod_1. }
  assert (m1 : 0 < Cmod z1) by now apply Cmod_gt_0. assert (m2 : 0 < Cmod z2) by now apply Cmod_gt_0. assert (m3 : 0 < Cmod z3) by now apply Cmod_gt_0.
  (* the sum of the angles *)
  assert (Cs : cos (t1 + t2 + t3) = -1).
  { destruct A1 as (_ & C1 & S1), A2 as (_ & C2 & S2), A3 as (_ & C3 & S3).
    rewrite cos_plus, cos_plus, sin_plus.
    assert (E : fst (z1 * z2 * z3)%C = -1) by (rewrite Hp; cbn; ring).
    unfold Cmult in E. cbn [fst snd] in E. rewrite C1, C2, C3, S1, S2, S3 in E.
    replace (-1) with (Cmod z1 * Cmod z2 * Cmod z3 * ((cos t1 * cos t2 - sin t1 * sin t2) * cos t3 - (sin t1 * cos t2 + cos t1 * sin t2) * sin t3)) by (rewrite <- E; ring).
    rewrite M. ring. }
  (* second relation: z2 z3 + 1 = z3 *)
  assert (Hsum2 : (z2 * z3 + 1 = z3)%C).
  { assert (E : (z2 * z3 = (z1 * z2 + 1) * z3)%C) by (now rewrite Hsum).
    rewrite E. rewrite Cmult_plus_distr_r, Hp, Cmult_1_l. rewrite <- Cplus_assoc, (Cplus_comm z3), Cplus_assoc.
    replace (- (1) + 1)%C with (RtoC 0) by (unfold Copp, Cplus, RtoC; apply injective_projections; cbn [fst snd]; ring). apply Cplus_0_l. }
  (* imaginary parts: Im z1 |z2|^2 = Im z2, Im z2 |z3|^2 = Im z3 *)
  assert (I12 : snd z1 * Cmod z2 ^ 2 = snd z2).
  { rewrite cmod_sq. pose proof (f_equal fst Hsum) as F. pose proof (f_equal snd Hsum) as S0.
    unfold Cplus, Cmult, RtoC in F, S0. cbn [fst snd] in F, S0. exact (im_relation _ _ _ _ F S0). }
  assert (I23 : snd z2 * Cmod z3 ^ 2 = snd z3).
  { rewrite cmod_sq. pose proof (f_equal fst Hsum2) as F. pose proof (f_equal snd Hsum2) as S0.
    unfold Cplus, Cmult, RtoC in F, S0. cbn [fst snd] in F, S0. exact (im_relation _ _ _ _ F S0). }
  assert (P2 : 0 < Cmod z2 ^ 2) by nra. assert (P3 : 0 < Cmod z3 ^ 2) by nra.
  destruct (angle_signs z1 t1 N1 A1) as (U1 & D1 & R1). destruct (angle_signs z2 t2 N2 A2) as (U2 & D2 & R2).
  destruct (angle_signs z3 t3 N3 A3) as (U3 & D3 & R3). pose proof PI_RGT_0.
  destruct (Rtotal_order (snd z1) 0) as [H1|[H1|H1]].
  - right. assert (snd z2 < 0) by nra. assert (snd z3 < 0) by nra. specialize (D1 H1). specialize (D2 H0). specialize (D3 H2).
    assert (- (t1 + t2 + t3) = PI) by (apply cos_m1_small; [rewrite cos_neg; exact Cs|lra]). lra.
  - left. assert (H2 : snd z2 = 0) by (rewrite <- I12, H1; ring). assert (H3 : snd z3 = 0) by (rewrite <- I23, H2; ring).
    specialize (R1 H1). specialize (R2 H2). specialize (R3 H3).
    assert (F1 : fst z1 <> 0) by (intros F; apply N1; apply injective_projections; assumption).
    assert (F2 : fst z2 <> 0) by (intros F; apply N2; apply injective_projections; assumption).
    assert (F3 : fst z3 <> 0) by (intros F; apply N3; apply injective_projections; assumption).
    pose proof (f_equal fst Hsum) as E1. pose proof (f_equal fst Hsum2) as E2. pose proof (f_equal fst Hp) as E3.
    unfold Cplus, Cmult, Copp, RtoC in E1, E2, E3. cbn [fst snd] in E1, E2, E3. rewrite H1, H2, H3 in *.
    assert (E1' : fst z1 * fst z2 + 1 = fst z2) by lra. assert (E2' : fst z2 * fst z3 + 1 = fst z3) by lra.
    assert (E3' : fst z1 * fst z2 * fst z3 = -1) by lra.
    destruct (Rlt_dec 0 (fst z1)) as [G1|G1]; destruct (Rlt_dec 0 (fst z2)) as [G2|G2]; destruct (Rlt_dec 0 (fst z3)) as [G3|G3];
      try (assert (fst z1 < 0) by lra); try (assert (fst z2 < 0) by lra); try (assert (fst z3 < 0) by lra);
      try (exfalso; nra); try (exfalso; assert (0 < fst z1 * fst z2 * fst z3) by (repeat apply Rmult_lt_0_compat; assumption); lra);
      repeat match goal with
      | R : (0 < ?a -> ?t = 0) /\ (?a < 0 -> ?t = PI), G : 0 < ?a |- _ => rewrite (proj1 R G); clear R
      | R : (0 < ?a -> ?t = 0) /\ (?a < 0 -> ?t = PI), G : ?a < 0 |- _ => rewrite (proj2 R G); clear R
      end; try lra.
  - left. assert (0 < snd z2) by nra. assert (0 < snd z3) by nra. specialize (U1 H1). specialize (U2 H0). specialize (U3 H2).
    assert (t1 + t2 + t3 = PI) by (apply cos_m1_small; [exact Cs|lra]). lra.
Qed.
