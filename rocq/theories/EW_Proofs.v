From Coq Require Import Reals List Lra Lia.
From Coquelicot Require Import Coquelicot.
From Verif Require Import Base EW_Model EW_Spec.
Import ListNotations.
Local Open Scope R_scope.

Lemma Cdiv_r (z : C) (r : R) : r <> 0 -> (z / RtoC r)%C = (RtoC (/ r) * z)%C.
Proof. intro H. unfold Cdiv. rewrite <- RtoC_inv by exact H. apply Cmult_comm. Qed.

Lemma s2pos : 0 < sqrt 2. Proof. apply sqrt_lt_R0; lra. Qed.
Lemma s2sq : sqrt 2 * sqrt 2 = 2. Proof. apply sqrt_sqrt; lra. Qed.

Section Tree.
  Variables (p : ewpar) (s co : R).
  Hypothesis T : tree p s co.
  Lemma tG : 0 < p_GF p. Proof. apply T. Qed.
  Lemma tZ : 0 < p_mZ p. Proof. apply T. Qed.
  Lemma ts : 0 < s. Proof. apply T. Qed.
  Lemma tsc : s < co. Proof. apply T. Qed.
  Lemma t1 : s ^ 2 + co ^ 2 = 1. Proof. apply T. Qed.
  Lemma tree_eq : s ^ 2 * co ^ 2 * (sqrt 2 * p_GF p * p_mZ p ^ 2) = PI * p_alpha p. Proof. apply T. Qed.
  Lemma tc : 0 < co. Proof. generalize ts tsc; lra. Qed.
  Lemma sh2_is : sinthetahat2 p = s ^ 2.
  Proof.
    unfold sinthetahat2.
    assert (E : 1 - 4 * PI * p_alpha p / (sqrt 2 * p_GF p * p_mZ p ^ 2) = (co ^ 2 - s ^ 2) * (co ^ 2 - s ^ 2)).
    { replace (4 * PI * p_alpha p) with (4 * (PI * p_alpha p)) by ring. rewrite <- tree_eq.
      generalize t1 tG tZ s2pos; intros E1 a b c.
      replace (4 * (s ^ 2 * co ^ 2 * (sqrt 2 * p_GF p * p_mZ p ^ 2)) / (sqrt 2 * p_GF p * p_mZ p ^ 2)) with (4 * (s ^ 2 * co ^ 2))
        by (field; repeat split; lra).
      replace (co ^ 2) with (1 - s ^ 2) by lra. ring. }
    rewrite E, sqrt_square.
    - generalize t1; lra.
    - generalize ts tsc; intros; nra.
  Qed.
  Lemma sh_is : sqrt (sinthetahat2 p) = s.
  Proof. rewrite sh2_is. replace (s ^ 2) with (s * s) by ring. apply sqrt_square. generalize ts; lra. Qed.
  Lemma ch_is : sqrt (1 - sinthetahat2 p) = co.
  Proof. rewrite sh2_is. replace (1 - s ^ 2) with (co * co) by (generalize t1; lra). apply sqrt_square. generalize tc; lra. Qed.
  (** 2^(1/4) sqrt(pi alpha) mZ / GF^(3/2) *)
  Lemma wb_is : (Rpower 2 (1 / 4) * sqrt (PI * p_alpha p) * p_mZ p) / Rpower (p_GF p) (3 / 2) = sqrt 2 * (s * co) * p_mZ p ^ 2 / p_GF p.
  Proof.
    generalize tG tZ s2pos ts tc; intros hG hZ h2 hs hc.
    assert (E2 : Rpower 2 (1 / 4) = sqrt (sqrt 2)).
    { rewrite <- Rpower_sqrt by exact h2. rewrite <- (Rpower_sqrt 2) by lra. rewrite Rpower_mult. f_equal. field. }
    assert (EG : Rpower (p_GF p) (3 / 2) = p_GF p * sqrt (p_GF p)).
    { replace (3 / 2) with (1 + / 2) by field. rewrite Rpower_plus, Rpower_1, Rpower_sqrt by exact hG. reflexivity. }
    assert (EA : sqrt (PI * p_alpha p) = s * co * p_mZ p * (sqrt (sqrt 2) * sqrt (p_GF p))).
    { rewrite <- tree_eq. rewrite <- sqrt_mult by lra.
      replace (s ^ 2 * co ^ 2 * (sqrt 2 * p_GF p * p_mZ p ^ 2)) with ((s * co * p_mZ p) * (s * co * p_mZ p) * (sqrt 2 * p_GF p)) by ring.
      rewrite sqrt_mult, sqrt_square; [reflexivity | | |].
      - repeat apply Rmult_le_pos; lra.
      - apply Rle_0_sqr.
      - apply Rmult_le_pos; lra. }
    rewrite E2, EG, EA.
    assert (Q : sqrt (sqrt 2) * sqrt (sqrt 2) = sqrt 2) by (apply sqrt_sqrt; lra).
    assert (hq : 0 < sqrt (p_GF p)) by (apply sqrt_lt_R0; lra).
    replace (sqrt (sqrt 2) * (s * co * p_mZ p * (sqrt (sqrt 2) * sqrt (p_GF p))) * p_mZ p)
      with ((sqrt (sqrt 2) * sqrt (sqrt 2)) * (s * co) * p_mZ p ^ 2 * sqrt (p_GF p)) by ring.
    rewrite Q. field. split; lra.
  Qed.

  (** the shifts in terms of real numbers *)
  Lemma d_gZb_is c : d_gZb p c =
    (RtoC (- (1 / (2 * sqrt 2 * p_GF p))) * (c (phil3 2 2) + c (phil3 1 1) - c ll_1221 / RtoC 2) + RtoC (- (1 / (4 * sqrt 2 * p_GF p))) * c phiD)%C.
  Proof.
    unfold d_gZb. rewrite sh_is, ch_is.
    generalize tG tZ s2pos; intros hG hZ h2.
    unfold d_mZ2. rewrite wb_is. unfold d_GF.
    rewrite !(Cdiv_r _ (sqrt 2)) by lra. rewrite (Cdiv_r _ (2 * p_mZ p ^ 2)) by (apply Rmult_integral_contrapositive; split; [lra | apply pow_nonzero; lra]).
    set (X := (c (phil3 2 2) + c (phil3 1 1) - c ll_1221 / RtoC 2)%C). set (D := c phiD). set (W := c phiWB).
    assert (E1 : / sqrt 2 * (1 / (sqrt 2 * p_GF p) * sqrt 2 / 2) = 1 / (2 * sqrt 2 * p_GF p)) by (field; lra).
    assert (E2 : / (2 * p_mZ p ^ 2) * (1 / (2 * sqrt 2) * p_mZ p ^ 2 / p_GF p) = 1 / (4 * sqrt 2 * p_GF p)) by (field; lra).
    assert (E3 : / (2 * p_mZ p ^ 2) * (sqrt 2 * (s * co) * p_mZ p ^ 2 / p_GF p) = s * co / (sqrt 2 * p_GF p)).
    { replace (s * co / (sqrt 2 * p_GF p)) with (s * co * (sqrt 2 * sqrt 2) / (2 * sqrt 2 * p_GF p)) by (rewrite s2sq; field; lra). field. lra. }
    rewrite <- E1, <- E2, <- E3. rewrite !RtoC_opp, !RtoC_mult. ring.
  Qed.
  Lemma c2h_pos : 0 < co ^ 2 - s ^ 2. Proof. generalize ts tsc; intros; nra. Qed.
  Lemma d_sh2_is c : d_sh2 p c =
    (RtoC (s ^ 2 * co ^ 2 / (2 * (co ^ 2 - s ^ 2) * sqrt 2 * p_GF p)) * (c phiD + RtoC 2 * (c (phil3 2 2) + c (phil3 1 1) - c ll_1221 / RtoC 2))
     + RtoC (s * co / ((co ^ 2 - s ^ 2) * sqrt 2 * p_GF p)) * c phiWB)%C.
  Proof.
    unfold d_sh2. rewrite sh_is, ch_is. generalize tG s2pos c2h_pos; intros hG h2 hc.
    set (X := (c phiD + RtoC 2 * (c (phil3 2 2) + c (phil3 1 1) - c ll_1221 / RtoC 2))%C).
    replace (s ^ 2 * co ^ 2 / (2 * (co ^ 2 - s ^ 2) * sqrt 2 * p_GF p)) with (2 * co * s / (8 * (co ^ 2 - s ^ 2) * sqrt 2 * p_GF p) * (2 * co * s)) by (field; lra).
    replace (s * co / ((co ^ 2 - s ^ 2) * sqrt 2 * p_GF p)) with (2 * co * s / (8 * (co ^ 2 - s ^ 2) * sqrt 2 * p_GF p) * 4) by (field; lra).
    rewrite !(RtoC_mult (_ / _)). ring.
  Qed.
End Tree.

(** linearity *)
Lemma d_GF_plus p c d : d_GF p (plus c d) = (d_GF p c + d_GF p d)%C.
Proof. unfold d_GF, plus. rewrite !(Cdiv_r _ 2) by lra. ring. Qed.
Lemma d_sh2_plus p c d : d_sh2 p (plus c d) = (d_sh2 p c + d_sh2 p d)%C.
Proof. unfold d_sh2, plus. rewrite !(Cdiv_r _ 2) by lra. ring. Qed.
Lemma d_mZ2_plus p c d : d_mZ2 p (plus c d) = (d_mZ2 p c + d_mZ2 p d)%C.
Proof. unfold d_mZ2, plus. ring. Qed.
Lemma d_gZb_plus p c d : d_gZb p (plus c d) = (d_gZb p c + d_gZb p d)%C.
Proof.
  unfold d_gZb. rewrite d_GF_plus, d_mZ2_plus. unfold plus, Cdiv. ring.
Qed.
Lemma conj_if_plus b (x y : C) : conj_if b (x + y)%C = (conj_if b x + conj_if b y)%C.
Proof. destruct b; [|reflexivity]. cbn. destruct x, y. apply injective_projections; cbn; ring. Qed.
Lemma d_gV_plus p c d f1 f2 : d_gV p (plus c d) f1 f2 = (d_gV p c f1 f2 + d_gV p d f1 f2)%C.
Proof.
  unfold d_gV. destruct (srt (idx f1) (idx f2)) as [i j]. rewrite d_gZb_plus, d_sh2_plus.
  cbv zeta. set (k := RtoC (/ (4 * sqrt 2 * p_GF p))).
  destruct (feqb f1 f2), (sec f1); unfold plus.
  all: match goal with |- (conj_if ?b ?X + _)%C = (conj_if ?b ?Y + _ + (conj_if ?b ?Z + _))%C => replace X with (Y + Z)%C by ring; rewrite conj_if_plus; ring
   | |- conj_if ?b ?X = (conj_if ?b ?Y + conj_if ?b ?Z)%C => replace X with (Y + Z)%C by ring; apply conj_if_plus end.
Qed.
Lemma d_gA_plus p c d f1 f2 : d_gA p (plus c d) f1 f2 = (d_gA p c f1 f2 + d_gA p d f1 f2)%C.
Proof.
  unfold d_gA. destruct (srt (idx f1) (idx f2)) as [i j]. rewrite d_gZb_plus, d_gV_plus.
  cbv zeta. set (k := RtoC (/ (4 * sqrt 2 * p_GF p))).
  destruct (feqb f1 f2), (sec f1); unfold plus; try reflexivity.
  all: match goal with |- (conj_if ?b ?X + _)%C = (conj_if ?b ?Y + _ + (conj_if ?b ?Z + _))%C => replace X with (Y + Z)%C by ring; rewrite conj_if_plus; ring
   | |- conj_if ?b ?X = (conj_if ?b ?Y + conj_if ?b ?Z)%C => replace X with (Y + Z)%C by ring; apply conj_if_plus end.
Qed.
Lemma d_gW_plus p c d f1 f2 : d_gW p (plus c d) f1 f2 = (d_gW p c f1 f2 + d_gW p d f1 f2)%C.
Proof. unfold d_gW. destruct (srt _ _) as [i j]. rewrite d_sh2_plus. unfold plus, Cdiv. destruct (sec f1); ring. Qed.
Lemma dmW_plus p c d : dmW_SMEFT p (plus c d) = dmW_SMEFT p c + dmW_SMEFT p d.
Proof. unfold dmW_SMEFT, plus. rewrite !(Cdiv_r _ 2) by lra. destruct (c phiWB), (c phiD), (c (phil3 1 1)), (c (phil3 2 2)), (c ll_1221), (d phiWB), (d phiD), (d (phil3 1 1)), (d (phil3 2 2)), (d ll_1221).
  cbn. ring.
Qed.

(** ** values along the flat directions *)
Lemma srt_same i : srt i i = (i, i). Proof. unfold srt. destruct (Nat.leb i i); reflexivity. Qed.
Lemma feqb_eq a b : feqb a b = true <-> a = b.
Proof. destruct a, b; cbn; split; congruence. Qed.
Lemma feqb_refl a : feqb a a = true. Proof. apply feqb_eq; reflexivity. Qed.

Section Flat.
  Variables (p : ewpar) (s co b : R).
  Hypothesis T : tree p s co.
  Let hG : 0 < p_GF p := tG _ _ _ T.
  Let hs : 0 < s := ts _ _ _ T.
  Let hc : 0 < co := tc _ _ _ T.
  Let h1 : s ^ 2 + co ^ 2 = 1 := t1 _ _ _ T.
  Let hd : 0 < co ^ 2 - s ^ 2 := c2h_pos _ _ _ T.
  Let h2 : 0 < sqrt 2 := s2pos.
  Ltac cx := apply injective_projections; cbn [fst snd RtoC Cplus Cminus Copp Cmult Cconj].

  Lemma flatB_gZb : d_gZb p (flatB s co b) = RtoC (- (b / (2 * sqrt 2 * p_GF p))).
  Proof using T hG h2.
    rewrite (d_gZb_is _ _ _ T). cbn [flatB diag Nat.eqb]. rewrite (Cdiv_r _ 2) by lra. cx; field; lra.
  Qed.
  Lemma flatB_sh2 : d_sh2 p (flatB s co b) = RtoC (- (b * co ^ 2 / (2 * sqrt 2 * p_GF p))).
  Proof using T hG h2 hs hd h1.
    rewrite (d_sh2_is _ _ _ T). cbn [flatB diag Nat.eqb]. rewrite (Cdiv_r _ 2) by lra.
    cx; [|field; repeat split; lra].
    transitivity (- (b * co ^ 2) * (1 - 2 * s ^ 2) / (2 * (co ^ 2 - s ^ 2) * sqrt 2 * p_GF p)); [field; repeat split; lra|].
    replace (1 - 2 * s ^ 2) with (co ^ 2 - s ^ 2) by lra. field; repeat split; lra.
  Qed.
  Lemma flatW_gZb : d_gZb p (flatW s co b) = RtoC (- (b / (sqrt 2 * p_GF p))).
  Proof using T hG h2.
    rewrite (d_gZb_is _ _ _ T). cbn [flatW diag Nat.eqb]. rewrite (Cdiv_r _ 2) by lra. cx; field; lra.
  Qed.
  Lemma flatW_sh2 : d_sh2 p (flatW s co b) = RtoC (b * s ^ 2 / (sqrt 2 * p_GF p)).
  Proof using T hG h2 hs hc hd h1.
    rewrite (d_sh2_is _ _ _ T). cbn [flatW diag Nat.eqb]. rewrite (Cdiv_r _ 2) by lra.
    cx; [|field; repeat split; lra].
    transitivity (s ^ 2 * b * (2 * co ^ 2 - 1) / ((co ^ 2 - s ^ 2) * sqrt 2 * p_GF p)); [field; repeat split; lra|].
    replace (2 * co ^ 2 - 1) with (co ^ 2 - s ^ 2) by lra. field; repeat split; lra.
  Qed.
  (** off-diagonal: nothing *)
  Lemma flat_off f1 f2 (F : wcs) : F = flatB s co b \/ F = flatW s co b -> sec f1 = sec f2 -> f1 <> f2 -> d_gV p F f1 f2 = RtoC 0 /\ d_gA p F f1 f2 = RtoC 0.
  Proof using Type.
    intros HF Hs Hne. unfold d_gA, d_gV.
    destruct f1, f2; cbn in Hs; try discriminate; try (exfalso; apply Hne; reflexivity); cbn;
      destruct HF as [-> | ->]; cbn; split; apply injective_projections; cbn; ring.
  Qed.
  Lemma flatB_gA f : d_gA p (flatB s co b) f f = RtoC 0.
  Proof using T hG h2.
    unfold d_gA, d_gV. rewrite srt_same, feqb_refl, Nat.ltb_irrefl. unfold conj_if. rewrite flatB_gZb.
    unfold gA_SM, gV_SM; destruct f; cbn [sec flatB T3L Qf idx diag Nat.eqb]; apply injective_projections; cbn; field; lra.
  Qed.
  Lemma flatW_gA f : d_gA p (flatW s co b) f f = RtoC 0.
  Proof using T hG h2.
    unfold d_gA, d_gV. rewrite srt_same, feqb_refl, Nat.ltb_irrefl. unfold conj_if. rewrite flatW_gZb.
    unfold gA_SM, gV_SM; destruct f; cbn [sec flatW T3L Qf idx diag Nat.eqb]; apply injective_projections; cbn; field; lra.
  Qed.
  Lemma flatB_gV f : d_gV p (flatB s co b) f f = RtoC (b * charge f * (sin2eff p f - s ^ 2) / (2 * sqrt 2 * p_GF p)).
  Proof using T hG h2 hs hd h1.
    unfold d_gV. rewrite srt_same, feqb_refl, Nat.ltb_irrefl. unfold conj_if. rewrite flatB_gZb, flatB_sh2.
    assert (Eco : co ^ 2 = 1 - s ^ 2) by lra. rewrite Eco.
    unfold gV_SM, sin2eff; destruct f; cbn [sec flatB T3L Qf idx diag Nat.eqb s2w_eff charge]; apply injective_projections; cbn -[pow]; field; lra.
  Qed.
  Lemma flatW_gV f : d_gV p (flatW s co b) f f = RtoC (b * charge f * (sin2eff p f - s ^ 2) / (sqrt 2 * p_GF p)).
  Proof using T hG h2 hs hc hd h1.
    unfold d_gV. rewrite srt_same, feqb_refl, Nat.ltb_irrefl. unfold conj_if. rewrite flatW_gZb, flatW_sh2.
    unfold gV_SM, sin2eff; destruct f; cbn [sec flatW T3L Qf idx diag Nat.eqb s2w_eff charge]; apply injective_projections; cbn -[pow]; field; lra.
  Qed.
  Lemma flatB_gW f1 f2 : d_gW p (flatB s co b) f1 f2 = RtoC 0.
  Proof using T hG h2 hs hc hd h1.
    unfold d_gW. destruct (srt _ _) as [i j]. rewrite (sh_is _ _ _ T), (ch_is _ _ _ T), flatB_sh2.
    rewrite (Cdiv_r _ (s ^ 2)) by (apply pow_nonzero; lra).
    destruct (sec f1); cbn [flatB]; apply injective_projections; cbn -[pow]; field; repeat split; lra.
  Qed.
  Lemma flatW_gW f1 f2 : idx f1 = idx f2 -> d_gW p (flatW s co b) f1 f2 = RtoC 0.
  Proof using T hG h2 hs hc hd h1.
    intro E. unfold d_gW. rewrite E, srt_same. rewrite (sh_is _ _ _ T), (ch_is _ _ _ T), flatW_sh2.
    rewrite (Cdiv_r _ (s ^ 2)) by (apply pow_nonzero; lra).
    destruct (sec f1); cbn [flatW]; unfold diag; rewrite Nat.eqb_refl; apply injective_projections; cbn -[pow]; field; repeat split; lra.
  Qed.
  Lemma flatB_mW : dmW_SMEFT p (flatB s co b) = 0.
  Proof using T hG h2 hs hc hd.
    unfold dmW_SMEFT. rewrite (sh_is _ _ _ T), (ch_is _ _ _ T). rewrite (Cdiv_r _ 2) by lra. cbn [flatB diag Nat.eqb]. cbn -[pow]. field. repeat split; lra.
  Qed.
  Lemma flatW_mW : dmW_SMEFT p (flatW s co b) = 0.
  Proof using T hG h2 hs hc hd.
    unfold dmW_SMEFT. rewrite (sh_is _ _ _ T), (ch_is _ _ _ T). rewrite (Cdiv_r _ 2) by lra. cbn [flatW diag Nat.eqb]. cbn -[pow]. field. repeat split; lra.
  Qed.
End Flat.
