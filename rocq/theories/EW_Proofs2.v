From Coq Require Import Reals List Lra Lia.
From Coquelicot Require Import Coquelicot.
From Verif Require Import Base EW_Model EW_Spec EW_Proofs.
Import ListNotations.
Local Open Scope R_scope.

Lemma msq (z : C) : Cmod z ^ 2 = fst z ^ 2 + snd z ^ 2.
Proof. unfold Cmod. destruct z as [a b]; cbn [fst snd]. replace (sqrt (a ^ 2 + b ^ 2) ^ 2) with (sqrt (a ^ 2 + b ^ 2) * sqrt (a ^ 2 + b ^ 2)) by ring.
  apply sqrt_sqrt. nra. Qed.
Lemma mod_pos (z : C) : 0 <= Cmod z ^ 2. Proof. rewrite msq. nra. Qed.

Lemma alike_sec f1 f2 : alike f1 f2 -> sec f1 = sec f2.
Proof. unfold alike. destruct f1, f2; cbn; intros [A B]; try reflexivity; exfalso; lra. Qed.
Lemma srt_comm i j : srt i j = srt j i.
Proof. unfold srt. destruct (Nat.leb i j) eqn:A, (Nat.leb j i) eqn:B; try reflexivity; [|]; rewrite ?Nat.leb_le, ?Nat.leb_gt in *; [f_equal; lia | lia]. Qed.
Lemma feqb_comm a b : feqb a b = feqb b a. Proof. destruct a, b; reflexivity. Qed.
Lemma d_gV_sym p c f1 f2 : sec f1 = sec f2 -> d_gV p c f1 f2 = d_gV p c f2 f1.
Proof.
  intro E. unfold d_gV. rewrite srt_comm, (feqb_comm f2 f1), E. destruct (srt (idx f2) (idx f1)) as [i j].
  destruct (feqb f1 f2) eqn:F; [apply feqb_eq in F; subst; reflexivity | reflexivity].
Qed.
Lemma d_gA_sym p c f1 f2 : sec f1 = sec f2 -> d_gA p c f1 f2 = d_gA p c f2 f1.
Proof.
  intro E. unfold d_gA. rewrite (d_gV_sym p c f1 f2 E), srt_comm, (feqb_comm f2 f1), E. destruct (srt (idx f2) (idx f1)) as [i j].
  destruct (feqb f1 f2) eqn:F; [apply feqb_eq in F; subst; reflexivity | reflexivity].
Qed.
Lemma Nc_sec f1 f2 : sec f1 = sec f2 -> Nc f1 = Nc f2. Proof. destruct f1, f2; cbn; intro; congruence. Qed.
Lemma GammaZ_sym p c f1 f2 : sec f1 = sec f2 -> GammaZ p c f1 f2 = GammaZ p c f2 f1.
Proof.
  intro E. unfold GammaZ. rewrite (d_gV_sym _ _ _ _ E), (d_gA_sym _ _ _ _ E), (Nc_sec _ _ E), (feqb_comm f2 f1).
  destruct (feqb f1 f2) eqn:F; [apply feqb_eq in F; subst; reflexivity | reflexivity].
Qed.
Lemma nonp_GF p : d_GF p nonp = RtoC 0. Proof. unfold d_GF, nonp. rewrite (Cdiv_r _ 2) by lra. ring. Qed.
Lemma nonp_sh2 p : d_sh2 p nonp = RtoC 0. Proof. unfold d_sh2, nonp. rewrite (Cdiv_r _ 2) by lra. ring. Qed.
Lemma nonp_gZb p : d_gZb p nonp = RtoC 0. Proof. unfold d_gZb, d_mZ2. rewrite nonp_GF. unfold nonp, Cdiv. ring. Qed.
Lemma conj0 b : conj_if b (RtoC 0) = RtoC 0. Proof. destruct b; [|reflexivity]. apply injective_projections; cbn; ring. Qed.
Lemma nonp_gV p f1 f2 : d_gV p nonp f1 f2 = RtoC 0.
Proof.
  unfold d_gV. destruct (srt _ _) as [i j]. rewrite nonp_gZb, nonp_sh2. unfold nonp. cbv zeta.
  destruct (feqb f1 f2), (sec f1); match goal with |- context [conj_if ?b ?x] => replace x with (RtoC 0) by ring end; rewrite conj0; ring.
Qed.
Lemma nonp_gA p f1 f2 : d_gA p nonp f1 f2 = RtoC 0.
Proof.
  unfold d_gA. destruct (srt _ _) as [i j]. rewrite nonp_gV, nonp_gZb. unfold nonp. cbv zeta.
  destruct (feqb f1 f2), (sec f1); try reflexivity; match goal with |- context [conj_if ?b ?x] => replace x with (RtoC 0) by ring end; rewrite conj0; ring.
Qed.
Lemma nonp_gW p f1 f2 : d_gW p nonp f1 f2 = RtoC 0.
Proof. unfold d_gW. destruct (srt _ _) as [i j]. rewrite nonp_sh2. unfold nonp, Cdiv. ring. Qed.
Lemma Cmod0 : Cmod (RtoC 0) ^ 2 = 0. Proof. rewrite msq. cbn. ring. Qed.
Lemma GammaZ_sm p f : GammaZ p nonp f f = GammaZ_SM p f.
Proof. unfold GammaZ, GammaZ_NP. rewrite feqb_refl, nonp_gV, nonp_gA, Cmod0. cbn [fst snd RtoC Cmult]. ring. Qed.
Lemma GammaZ_sm_off p f1 f2 : f1 <> f2 -> GammaZ p nonp f1 f2 = 0.
Proof. intro H. unfold GammaZ, GammaZ_NP. destruct (feqb f1 f2) eqn:F; [apply feqb_eq in F; contradiction|]. rewrite nonp_gV, nonp_gA, Cmod0. cbn [fst snd RtoC Cmult]. ring. Qed.
Lemma GammaZ_off p c f1 f2 : f1 <> f2 -> GammaZ p c f1 f2 = sqrt 2 * p_GF p * p_mZ p ^ 3 / (3 * PI) * Nc f1 * (Cmod (d_gV p c f1 f2) ^ 2 + Cmod (d_gA p c f1 f2) ^ 2).
Proof. intro H. unfold GammaZ, GammaZ_NP. destruct (feqb f1 f2) eqn:F; [apply feqb_eq in F; contradiction|]. cbn [fst snd RtoC Cmult]. ring. Qed.
Lemma K_pos p : 0 <= p_GF p -> 0 <= p_mZ p -> 0 <= sqrt 2 * p_GF p * p_mZ p ^ 3 / (3 * PI).
Proof.
  intros a b. unfold Rdiv. apply Rmult_le_pos.
  - apply Rmult_le_pos; [apply Rmult_le_pos; [apply sqrt_pos | exact a] | apply pow_le; exact b].
  - left. apply Rinv_0_lt_compat. generalize PI_RGT_0; lra.
Qed.
Lemma Nc_pos f : 0 < Nc f. Proof. destruct f; cbn; lra. Qed.
Lemma Nc_is f : Nc f = colours f. Proof. destruct f; reflexivity. Qed.
Lemma gV_SM_is p f : gV_SM p f = isospin f / 2 - charge f * sin2eff p f.
Proof. unfold gV_SM, sin2eff, s2w_eff, isospin, charge, T3L, Qf. destruct f; lra. Qed.
Lemma gA_SM_is f : gA_SM f = isospin f / 2.
Proof. unfold gA_SM, isospin, T3L. destruct f; lra. Qed.
Lemma GammaZ_diag p c f : GammaZ p c f f = GammaZ_SM p f + sqrt 2 * p_GF p * p_mZ p ^ 3 / (3 * PI) * colours f *
  (Cmod (gV_tot p c f) ^ 2 + Cmod (gA_tot p c f) ^ 2 - (isospin f / 2 - charge f * sin2eff p f) ^ 2 - (isospin f / 2) ^ 2).
Proof.
  unfold GammaZ, GammaZ_NP. rewrite feqb_refl, Nc_is. unfold gV_tot, gA_tot. rewrite gV_SM_is, gA_SM_is, !msq.
  destruct (d_gV p c f f), (d_gA p c f f). cbn [fst snd RtoC Cmult Cplus]. ring.
Qed.
Lemma quotbound (r : R) : -1 <= 2 * r / (1 + r ^ 2) <= 1.
Proof.
  assert (0 < 1 + r ^ 2) by nra. split.
  - apply Rle_div_r; [lra|]. generalize (Rle_0_sqr (r + 1)); unfold Rsqr; nra.
  - apply Rle_div_l; [lra|]. generalize (Rle_0_sqr (r - 1)); unfold Rsqr; nra.
Qed.

(** W *)
Lemma GammaW_sm_l p l : sec l = Sl -> GammaW p nonp l l = p_GWlep p / 3.
Proof. intro S. unfold GammaW, GammaW_SM, gWf_SM, GammaW_NP. rewrite S, feqb_refl, nonp_gW, Cmod0, msq. cbn [fst snd RtoC Cmult]. field. apply PI_neq0. Qed.
Lemma GammaW_sm_ll p l l' : sec l = Sl -> l <> l' -> GammaW p nonp l l' = 0.
Proof. intros S H. unfold GammaW, GammaW_SM, gWf_SM, GammaW_NP. rewrite S, nonp_gW. destruct (feqb l l') eqn:F; [apply feqb_eq in F; contradiction|].
  rewrite Cmod0. cbn [fst snd RtoC Cmult]. field. apply PI_neq0. Qed.
Lemma GammaW_sm_q p q d : sec q = Su -> GammaW p nonp q d = p_GWhad p / 2 * Cmod (p_V p (idx q - 1)%nat (idx d - 1)%nat) ^ 2.
Proof.
  intros S. unfold GammaW, GammaW_SM, gWf_SM, GammaW_NP. rewrite S, nonp_gW, Cmod0.
  rewrite (Cdiv_r _ 2) by lra. rewrite !msq. set (z := p_V _ _ _). destruct z. cbn [fst snd RtoC Cmult]. field. apply PI_neq0.
Qed.
